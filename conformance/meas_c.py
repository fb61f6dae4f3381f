from conf import *
from mathcut import NAT
d=json.load(open(FX+'fixtures_measures.json'))
tot=0;bad=0;skip=0
L=lambda x,n: list(range(n)) if x is None else (x if isinstance(x,list) else [x])
uni=lambda n:[F(1,n)]*n
only=sys.argv[1:]
for k,x in enumerate(d):
    if only and x['id'] not in only: continue
    p=norm(x['p']); n=len(p)
    defs='''Definition P0 := qm %s.\nDefinition C0 := mkchain P0 %s.\nDefinition m0 := env C0.
Definition om (r : res (option mat)) := match r with Ok (Some M) => Ok (Some (showm M)) | Ok None => Ok None | Err e => Err e end.
Definition ov (r : res (option vec)) := match r with Ok (Some M) => Ok (Some (showv M)) | Ok None => Ok None | Err e => Err e end.
Definition rm (r : res mat) := match r with Ok M => Ok (showm M) | Err e => Err e end.
Definition rv (r : res vec) := match r with Ok M => Ok (showv M) | Err e => Err e end.
Definition oq (r : res (option Qc)) := match r with Ok (Some M) => Ok (Some (this M)) | Ok None => Ok None | Err e => Err e end.
Definition sho (l : list (option Qc)) := map (fun o => match o with Some q => Some (this q) | None => None end) l.
'''%(qm(p),names(n))
    ev=[];exp={}
    def add(name,e,v): ev.append((name,e)); exp[name]=v
    for i,t in enumerate(x['committor_probabilities_data']):
        for b in ('backward','forward'):
            add('committor_%s_%d'%(b,i),'ov (committor_probabilities m0 %s %s %s)'%('true' if b=='backward' else 'false',nl(L(t['states1'],n)),nl(L(t['states2'],n))),t['value_'+b])
    for i,t in enumerate(x['expected_rewards_data']):
        add('er_%d'%i,'rv (expected_rewards P0 %d (qv %s))'%(t['steps'],qv(t['rewards'])),t['value'])
    for i,t in enumerate(x['expected_transitions_data']):
        if t['steps']>n: skip+=1; continue
        add('et_%d'%i,'rm (expected_transitions P0 (Ok (mkrdl [] [] [])) %d (qv %s))'%(t['steps'],qv(t['initial_distribution'] or uni(n))),t['value'])
    for i,t in enumerate(x['first_passage_probabilities_data']):
        if t['first_passage_states'] is None:
            add('fpp_%d'%i,'rm (first_passage_probabilities P0 %d %d)'%(t['steps'],t['initial_state']),t['value'])
        else:
            add('fpp_%d'%i,'rv (first_passage_set_probabilities P0 %d %d %s)'%(t['steps'],t['initial_state'],nl(L(t['first_passage_states'],n))),t['value'])
    for i,t in enumerate(x['first_passage_reward_data']):
        if t['rewards'] is None: skip+=1; continue
        add('fpr_%d'%i,'oq (r <- first_passage_reward P0 %d %d %s (qv %s) ;; Ok (Some r))'%(t['steps'],t['initial_state'],nl(L(t['first_passage_states'],n)),qv(t['rewards'])),t['value'])
    for i,t in enumerate(x['hitting_probabilities_data']):
        add('hp_%d'%i,'rv (hitting_probabilities nnls_search P0 %s)'%nl(L(t['targets'],n)),t['value'])
    for i,t in enumerate(x['hitting_times_data']):
        add('ht_%d'%i,'(r <- hitting_times nnls_search P0 %s ;; Ok (sho r))'%nl(L(t['targets'],n)),t['value'])
    for i,t in enumerate(x['mean_first_passage_times_between_data']):
        add('mfptb_%d'%i,'oq (mfpt_between m0 %s %s)'%(nl(L(t['origins'],n)),nl(L(t['targets'],n))),t['value'])
    for i,t in enumerate(x['mean_first_passage_times_to_data']):
        if t['targets'] is None: add('mfptt_%d'%i,'om (mfpt_all m0)',t['value'])
        else: add('mfptt_%d'%i,'ov (mfpt_to m0 %s)'%nl(L(t['targets'],n)),t['value'])
    for i,t in enumerate(x['mixing_time_data']):
        cut=F(1,4) if t['cutoff_type']=='traditional' else NAT
        add('mix_%d'%i,'mixing_time m0 (qv %s) %d (Q2Qc %s)'%(qv(t['initial_distribution'] or uni(n)),t['jump'],q(cut)),t['value'])
    for i,t in enumerate(x['sensitivity_data']):
        add('sens_%d'%i,'om (sensitivity lstsq_search m0 %d)'%t['state'],t['value'])
    for i,t in enumerate(x['time_correlations_data']):
        tp=t['time_points']; tl=L(tp,n); v=t['value']
        if v is not None and max(tl)>n: skip+=1; continue
        add('tc_%d'%i,'(r <- time_correlations m0 (Ok (mkrdl [] [] [])) %s %s %s ;; Ok (match r with Some l => Some (showv l) | None => None end))'%(nl(t['sequence1']),'None' if t['sequence2'] is None else '(Some %s)'%nl(t['sequence2']),nl(tl)),v if v is None or isinstance(v,list) else [v])
    for i,t in enumerate(x['time_relaxations_data']):
        tp=t['time_points']; tl=L(tp,n); v=t['value']
        if v is not None and max(tl)>n: skip+=1; continue
        add('tr_%d'%i,'(r <- time_relaxations m0 (Ok (mkrdl [] [] [])) %s (qv %s) %s ;; Ok (match r with Some l => Some (showv l) | None => None end))'%(nl(t['sequence']),qv(t['initial_distribution'] or uni(n)),nl(tl)),v if v is None or isinstance(v,list) else [v])
    add('absorption_probabilities','om (absorption_probabilities m0)',x['absorption_probabilities'])
    add('mean_absorption_times','ov (mean_absorption_times m0)',x['mean_absorption_times'])
    add('mean_number_visits','(r <- mean_number_visits m0 ;; Ok (map sho r))',x['mean_number_visits'])
    add('mean_recurrence_times','ov (mean_recurrence_times m0)',x['mean_recurrence_times'])
    r=run(defs,ev,'m%d'%k,'L_PropsR L_Nnls.\nOpen Scope res_scope')
    for nme,_ in ev:
        tot+=1
        if not close(r.get(nme),exp[nme],2e-5): bad+=1; print(x['id'],nme,'model',str(r.get(nme))[:300],'fixture',str(exp[nme])[:300])
print(tot,'compared',bad,'differ',skip,'skipped')
