from conf import *
d=json.load(open(FX+'fixtures_validation.json'))
tot=bad=skip=0
def num(x):
    if x!=x: return 'NaN'
    if x==float('inf'): return 'PInf'
    if x==float('-inf'): return 'NInf'
    return '(Fin (Q2Qc %s))'%q(x)
def san(x):
    if isinstance(x,list): return [san(a) for a in x]
    if isinstance(x,str) and x in ('NaN','Infinity','-Infinity'): return float(x.replace('Infinity','inf'))
    return x
def pv(x,tup=False):
    if x is None: return 'PNone'
    if isinstance(x,bool): return '(PBool %s)'%('true' if x else 'false')
    if isinstance(x,int): return '(PInt (%d)%%Z)'%x
    if isinstance(x,float): return '(PFloat %s)'%num(x)
    if isinstance(x,str): return '(PStr "%s"%%string)'%x
    if isinstance(x,dict): return 'POther'
    if isinstance(x,list): return '(%s [%s])'%('PTuple' if tup else 'PList','; '.join(pv(a) for a in x))
    raise Exception(x)
on=lambda x:'None' if x is None else '(Some %d)'%x
ls=lambda l:'[%s]%%string'%'; '.join('"%s"'%a for a in l)
b=lambda x:'true' if x else 'false'
olz=lambda l:'None' if l is None else '(Some ((%d)%%Z, %s))'%(l[0],b(l[1]))
olq=lambda l:'None' if l is None else '(Some (Q2Qc %s, %s))'%(q(l[0]),b(l[1]))
vt={'annihilation':'Annihilation','creation':'Creation','stochastic':'StochasticV','unconstrained':'Unconstrained'}
T={
'validate_boolean_data':lambda t,v:'v_boolean %s'%v,
'validate_boundary_condition_data':lambda t,v:'v_boundary_condition %s'%v,
'validate_emission_matrix_data':lambda t,v:'v_emission_matrix %s %d'%(v,t['size']),
'validate_enumerator_data':lambda t,v:'v_enumerator %s %s'%(v,ls(t['possible_values'])),
'validate_float_data':lambda t,v:'v_float %s %s %s'%(v,olq(t['lower_limit']),olq(t['upper_limit'])),
'validate_hyperparameter_data':lambda t,v:'v_hyperparameter %s %d'%(v,t['size']),
'validate_integer_data':lambda t,v:'v_integer %s %s %s'%(v,olz(t['lower_limit']),olz(t['upper_limit'])),
'validate_interval_data':lambda t,v:'v_interval %s'%pv(t['value'],True),
'validate_label_data':lambda t,v:'v_label %s %s'%(v,ls(t['labels'])),
'validate_labels_current_data':lambda t,v:'v_labels_current %s %s %s %s'%(v,ls(t['labels']),b(t['subset']),on(t['minimum_length'])),
'validate_labels_input_data':lambda t,v:'v_labels_input %s %s'%(v,on(t['size'])),
'validate_mask_data':lambda t,v:'v_mask %s %d %d'%(v,t['rows'] or 0,t['columns'] or 0),
'validate_matrix_data':lambda t,v:'v_matrix %s %s %s'%(v,on(t['rows']),on(t['columns'])),
'validate_partitions_data':lambda t,v:'v_partitions %s %s'%(v,ls(t['labels'])),
'validate_rewards_data':lambda t,v:'v_rewards %s %d'%(v,t['size']),
'validate_sequence_data':lambda t,v:'v_sequence %s %s'%(v,ls(t['labels'])),
'validate_sequences_data':lambda t,v:'fst (v_sequences %s %s %s)'%(v,ls(t['labels']),b(t['flex'])),
'validate_status_data':lambda t,v:'v_status %s %s'%(v,ls(t['labels'])),
'validate_time_points_data':lambda t,v:'v_time_points %s'%v,
'validate_transition_matrix_data':lambda t,v:'v_transition_matrix %s %s'%(v,on(t['size'])),
'validate_vector_data':lambda t,v:'v_vector %s %s %s %s'%(v,vt.get(t['vector_type'],'?'),b(t['flex']),on(t['size'])),
}
for k,l in d.items():
    if k not in T: skip+=len(l); k!='validate_dictionary_data' and print('not compared:',k,len(l)); continue
    it=[]
    for i,t in enumerate(l):
        t=dict(t); t['value']=san(t['value'])
        for kk in ('size','rows','columns'):
            if kk in t and t[kk] is None and k in ('validate_hyperparameter_data','validate_mask_data','validate_rewards_data','validate_emission_matrix_data'): t[kk]=3
        if 'labels' in t and not isinstance(t['labels'],list): skip+=1; continue
        it.append((i,'match (%s) with Ok _ => true | Err _ => false end'%T[k](t,pv(t['value'])),t))
    r=run('Definition dummy := 0.\n',[(a,e) for a,e,_ in it],k,'M_Validation ExV')
    for a,e,t in it:
        tot+=1
        if r.get(a)!=t['is_valid']: bad+=1; print(k,a,t,'model',r.get(a))
it=[]
for i,t in enumerate(d['validate_dictionary_data']):
    if t['attributes'] not in (None,['P','E']): continue
    el=t['dictionary_elements']
    if not isinstance(el,list): e='None'
    else:
        dd={}
        for x in el: dd[x[0] if len(x)==2 else tuple(x[:-1])]=x[-1]
        e='(Some [%s])'%'; '.join('(%s, %s)'%(pv(list(k),True) if isinstance(k,tuple) else pv(k),pv(v)) for k,v in dd.items())
    it.append((i,'match %s %s with Ok _ => true | Err _ => false end'%('v_dictionary_mc' if t['attributes'] is None else 'v_dictionary_hmm',e),t))
r=run('Definition dummy := 0.\n',[(a,e) for a,e,_ in it],'dict','M_Io ExV')
skip-=len(it)
for a,e,t in it:
    tot+=1
    if r.get(a)!=t['is_valid']: bad+=1; print('dictionary',a,t,'model',r.get(a))
print(tot,'compared',bad,'differ',skip,'not modelled')
