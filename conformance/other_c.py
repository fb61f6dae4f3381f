from conf import *
tot=0;bad=0;skip=0
PRE='''Open Scope res_scope.
Definition rc (r : res chain) := match r with Ok c => Ok (showm (ch_p c)) | Err e => Err e end.
Definition sdec (d : option decoding) := match d with Some d => Some (showm (d_post d), showm (d_back d), showm (d_fwd d), option_map showv (d_scale d)) | None => None end.
Definition shm (r : res hmm) := match r with Ok h => Ok (showm (h_p h), showm (h_e h)) | Err e => Err e end.
'''
IMP='L_PropsR L_Nnls M_Hmm M_Fitting M_Period M_Det'
def go(tag,items):
    """items: (name, expr, expected)"""
    global tot,bad
    r=run(PRE,[(a,b) for a,b,c in items],tag,IMP)
    for a,b,c in items:
        tot+=1
        if not close(r.get(a),c,2e-5): bad+=1; print(tag,a,'model',str(r.get(a))[:300],'fixture',str(c)[:300])
    print(tag,len(items))
ch=lambda p:'(mkchain (qm %s) %s)'%(qm(norm(p)),names(len(p)))
L=lambda x,n: list(range(n)) if x is None else (x if isinstance(x,list) else [x])
tr=lambda m:[list(r) for r in zip(*m)]
# classification
d=json.load(open(FX+'fixtures_classification.json')); it=[]
ix=lambda c:[[int(s)-1 for s in k] for k in c]
for x in d:
    P='(qm %s)'%qm(norm(x['p'])); n=len(x['p']); i=x['id']
    it+= [(i+'rec','recurrent_classes_indices %s (sccs %s)'%(P,P),ix(x['recurrent_classes'])),
          (i+'tra','transient_classes_indices %s (sccs %s)'%(P,P),ix(x['transient_classes'])),
          (i+'com','communicating_indices (sccs %s)'%P,ix(x['communicating_classes'])),
          (i+'cyc','cyclic_classes_indices %s %s (nx_default %s) false'%(P,names(n),P),ix(x['cyclic_classes'])),
          (i+'abs','absorbing_indices %s'%P,[int(s)-1 for s in x['absorbing_states']])]
go('class',it)
# lumping partitions
d=json.load(open(FX+'fixtures_properties.json')); it=[]
for x in d:
    if len(x['p'])<=6: it.append((x['id'],'find_lumping_partitions (qm %s)'%qm(norm(x['p'])),x['lumping_partitions']))
go('lumping',it)
# instance generators
d=json.load(open(FX+'fixtures_generators_instance.json')); it=[]
for x in d:
    C=ch(x['p']); n=len(x['p']); I=x['id']
    P='(qm %s)'%qm(norm(x['p']))
    it.append((I+'canon','rc (Ok (to_canonical_form %s (sccs %s)))'%(C,P),x['canonical_form'] or x['p']))
    for k,t in enumerate(x['bounded_data']):
        b=t['boundary_condition']; b='BAbsorbing' if b=='absorbing' else 'BReflecting' if b=='reflecting' else '(BNumber (Q2Qc %s))'%q(b)
        it.append((I+'bnd%d'%k,'rc (to_bounded_chain %s %s)'%(C,b),t['value']))
    for k,t in enumerate(x['lazy_data']):
        w=t['inertial_weights']; w='(WVector (qv %s))'%qv(w) if isinstance(w,list) else '(WScalar (Q2Qc %s))'%q(w)
        it.append((I+'lazy%d'%k,'rc (to_lazy_chain %s %s)'%(C,w),t['value']))
    for k,t in enumerate(x['lump_data']):
        if t['value'] is None or t['partitions'] is None: skip+=1; continue
        it.append((I+'lump%d'%k,'rc (lump_typed %s [%s])'%(C,'; '.join(nl(a) for a in t['partitions'])),t['value']))
    for k,t in enumerate(x['merge_with_data']):
        it.append((I+'merge%d'%k,'rc (merge_with %s %s (Q2Qc %s))'%(C,ch(t['p_other']),q(t['gamma'])),t['value']))
    for k,t in enumerate(x['nth_order_data']):
        it.append((I+'nth%d'%k,'rc (to_nth_order %s %d%%Z)'%(C,t['order']),t['value']))
    for k,t in enumerate(x['sub_data']):
        if t['value'] is None: skip+=1; continue
        it.append((I+'sub%d'%k,'rc (to_subchain_typed %s %s)'%(C,nl(L(t['states'],n))),t['value']))
go('inst',it)
# static generators
d=json.load(open(FX+'fixtures_generators_static.json')); it=[]
for k,t in enumerate(d['approximation_data']):
    if t['approximation_type']!='rouwenhorst': skip+=1; continue
    it.append(('rou%d'%k,'showm (rouwenhorst (%d - 2) (Q2Qc %s))'%(t['size'],q((1+F(str(t['rho'])))/2)),t['value']))
for k,t in enumerate(d['birth_death_data']): it.append(('bd%d'%k,'rc (birth_death (qv %s) (qv %s) None)'%(qv(t['p']),qv(t['q'])),t['value']))
for k,t in enumerate(d['gamblers_ruin_data']): it.append(('gr%d'%k,'rc (gamblers_ruin %d%%Z (Q2Qc %s) None)'%(t['size'],q(t['w'])),t['value']))
for k,t in enumerate(d['identity_data']): it.append(('id%d'%k,'rc (identity %d%%Z None)'%t['size'],t['value']))
for k,t in enumerate(d['population_genetics_model_data']): it.append(('pg%d'%k,'rc (population_genetics_model %s %d%%Z (Q2Qc %s) (Q2Qc %s) (Q2Qc %s) None)'%('Moran' if t['model']=='moran' else 'WrightFisher',t['n'],q(t['s']),q(t['u']),q(t['v'])),t['value']))
for k,t in enumerate(d['urn_model_data']): it.append(('urn%d'%k,'rc (urn_model %s %d%%Z None)'%('BernoulliLaplace' if t['model']=='bernoulli-laplace' else 'Ehrenfest',t['n']),t['value']))
go('static',it)
# fitting
d=json.load(open(FX+'fixtures_fitting.json')); it=[]
for k,t in enumerate(d['fit_sequence_data']):
    st=t['possible_states']; s=[st.index(a) if isinstance(a,str) else a for a in t['sequence']]
    fp=t['fitting_param']
    if t['fitting_type']=='mle': ty='(SeqMle %s)'%('None' if fp is None else '(Some %s)'%('true' if fp else 'false'))
    elif fp is None: ty='(SeqMap None)'
    else: ty='(SeqMap (Some (fun i j => nth j (nth i [%s] []) 0)))'%'; '.join('['+'; '.join(str(int(a)) for a in r)+']' for r in fp)
    it.append(('fs%d'%k,'rc (fit_sequence %s [%s]%%string %s)'%(ty,'; '.join('"%s"'%a for a in st),nl(s)),t['value']))
go('fitseq',it)
it=[]
for k,t in enumerate(d['fit_function_data']):
    qt={'newton-cotes':'QNewton','simpson-rule':'QSimpson','trapezoid-rule':'QTrapezoid'}.get(t['quadrature_type'])
    f=t['f']
    print(k,t['quadrature_type'],f,t['quadrature_interval'],t['possible_states'])
    g={'(x_value + y_value) * 0.99':'((x + y) * Q2Qc (99 # 100))%Qc','(x_value + y_value)**2.0':'((x+y)*(x+y))%Qc'}
    e=f.replace('x_value','x').replace('y_value','y').replace('x_index','(Qcn xi)').replace('y_index','(Qcn yi)')
    if qt is None: skip+=1; continue
    iv=t['quadrature_interval']
    iv='None' if iv is None else '(Some (Q2Qc %s, Q2Qc %s))'%(q(iv[0]),q(iv[1]))
    m=g.get(f)
    if m is None: print('   no translation'); skip+=1; continue
    it.append(('ff%d'%k,'rc (fit_function %s [%s]%%string (fun xi x yi y => Some %s) %s)'%(qt,'; '.join('"%s"'%a for a in t['possible_states']),m,iv),t['value']))
go('fitfun',it)
# simulations
d=json.load(open(FX+'fixtures_simulations.json')); it=[]
for x in d:
    p=norm(x['p']); n=len(p); P='(qm %s)'%qm(p); I=x['id']
    st=lambda s:int(s)-1 if isinstance(s,str) else s
    for k,t in enumerate(x['predict_data']):
        v=t['value']; v=None if v is None else [st(a) for a in v]
        it.append((I+'pred%d'%k,'predict %s %d %d'%(P,t['steps'],st(t['initial_state'])),v))
    for k,t in enumerate(x['redistribute_data']):
        s=t['initial_status']
        s=[F(1,n)]*n if s is None else ([1 if j==s else 0 for j in range(n)] if isinstance(s,int) else s)
        if t['output_last']: it.append((I+'redl%d'%k,'(r <- redistribute_last %s %d (qv %s) ;; Ok [showv r])'%(P,t['steps'],qv(s)),t['value']))
        else: it.append((I+'red%d'%k,'(r <- redistribute_all %s %d (qv %s) ;; Ok (map showv r))'%(P,t['steps'],qv(s)),t['value']))
    for k,t in enumerate(x['sequence_probability_data']):
        s=[st(a) for a in t['sequence']]
        it.append((I+'seqp%d'%k,'this (path_prob %s %d %s)'%(P,s[0],nl(s[1:])),t['value']))
go('sim',it)
# hmm
d=json.load(open(FX+'fixtures_hmm.json')); it=[]
def inits(s,n): return [F(1,n)]*n if s is None else ([1 if j==s else 0 for j in range(n)] if isinstance(s,int) else s)
sy=lambda l:[int(a[1:])-1 if isinstance(a,str) else a for a in l]
PE=lambda t:'(qm %s) (qm %s)'%(qm(norm(t['p'])),qm(norm(t['e'])))
for k,t in enumerate(d['decode_data']):
    n=len(t['p']); v=t['value']
    if v is not None:
        v=[tr(v[1]),tr(v[2]),tr(v[3]),v[4] if len(v)>4 else None]
    it.append(('dec%d'%k,'sdec (hmm_decode %s (qv %s) %s %s)'%(PE(t),qv(inits(t['initial_status'],n)),nl(sy(t['symbols'])),'true' if t['use_scaling'] else 'false'),v))
for k,t in enumerate(d['estimate_data']):
    s=lambda l:'[%s]%%string'%'; '.join('"%s"'%a for a in l)
    v=t['value']
    ss=[t['possible_states'].index(a) if isinstance(a,str) else a for a in t['sequence_states']]
    so=[t['possible_symbols'].index(a) if isinstance(a,str) else a for a in t['sequence_symbols']]
    it.append(('est%d'%k,'shm (estimate %s %s %s %s)'%(s(t['possible_states']),s(t['possible_symbols']),nl(ss),nl(so)),v if v is not None else 'Err ValueErr'))
for k,t in enumerate(d['predict_data']):
    n=len(t['p']); v=t['value']; i=qv(inits(t['initial_distribution'],n)); o=nl(sy(t['symbols']))
    pv=None if v is None else [int(a[1:])-1 if isinstance(a,str) else a for a in v[1]]
    if t['algorithm']=='map': it.append(('pmap%d'%k,'match predict_map %s (qv %s) %s with Some (_, l) => Some l | None => None end'%(PE(t),i,o),pv))
    else: it.append(('pvit%d'%k,'match viterbi %s (qv %s) %s with Ok (Some (_, l)) => Some l | _ => None end'%(PE(t),i,o),pv))
for k,t in enumerate(d['restrict_data']):
    n=len(t['p']); kk=len(t['e'][0])
    f=lambda s:'None' if s is None else ('(Some (SelList %s))'%nl(s) if isinstance(s,list) else '(Some (SelOne %d))'%s)
    s=lambda pre,m:'[%s]%%string'%'; '.join('"%s%d"'%(pre,a+1) for a in range(m))
    if isinstance(t['states'],str) or isinstance(t['symbols'],str): skip+=1; continue
    it.append(('res%d'%k,'shm (restrict (mkhmm %s %s %s) %s %s)'%(PE(t),s('P',n),s('E',kk),f(t['states']),f(t['symbols'])),t['value'] if t['value'] is not None else 'Err ValueErr'))
for k,t in enumerate(d['properties_data']):
    it.append(('reg%d'%k,'hmm_is_regular %d %d (qm %s)'%(len(t['p']),len(t['e'][0]),qm(norm(t['e']))),t['value'][1]))
go('hmm',it)
print(tot,'compared',bad,'differ',skip,'skipped')
