# The statistical tests (fixtures_assessments): statistic and degrees of freedom.
# The two statistics with logarithms are evaluated as lists of (count, quotient): the
# logarithms and the sum are computed here.
from conf import *
d=json.load(open(FX+'fixtures_assessments.json'))
st=lambda l:'['+'; '.join('"%s"'%x for x in l)+']%string'
for l in d.values():
    for c in l:
        ix=lambda s:[x if isinstance(x,int) else c.get('possible_states',c.get('states')).index(x) for x in s]
        if 'sequence' in c: c['sequence']=ix(c['sequence'])
        else: c['sequences']=[ix(x) for x in c['sequences']]
ev=[];want={}
for i,c in enumerate(d['assess_first_order_data']):
    s=nl(c['sequence']);n=len(c['possible_states'])
    ev.append((('fo',i),'match sum_opt (map (fun b => chi2_contingency (first_order_table %d %s b)) (seq 0 %d)) with Some x => Some (this x, Z.of_nat (%d * ((%d - 1) * (%d - 1)))) | None => None end'%(n,s,n,n,n,n)));want['fo',i]=c['value'][2:]
for i,c in enumerate(d['assess_markov_property_data']):
    s=nl(c['sequence']);n=len(c['possible_states'])
    ev.append((('mp',i),'match markov_chi2 (sample3 %s) (sample2 %s) (fit_mle %d false %s) (distinct triple_eqb (sample3 %s)) with Ok x => Some (this x, markov_dof %s %s) | Err _ => None end'%(s,s,n,s,s,st(c['possible_states']),s)));want['mp',i]=c['value'][2:]
for i,c in enumerate(d['assess_stationarity_data']):
    s=nl(c['sequence']);n=len(c['possible_states']);b=c['blocks']
    ev.append((('st',i),'match sum_opt (map (fun x => %s (stationarity_table %d %s %d x)) (seq 0 %d)) with Some x => Some (this x, Z.of_nat (%d * (%d - 1) * (%d - 1))) | None => None end'%('chisquare' if b==1 else 'chi2_contingency',n,s,b,n,n,n,b)));want['st',i]=c['value'][2:]
for i,c in enumerate(d['assess_homogeneity_data']):
    n=len(c['possible_states']);k=len(c['sequences']);l='['+'; '.join(nl(s) for s in c['sequences'])+']'
    ev.append((('ho',i),'if negb (existsb (fun i => existsb (fun j => negb (Nat.eqb i j) && existsb (fun x => memn x (nth j %s [])) (nth i %s [])) (seq 0 %d)) (seq 0 %d)) then None else Some (let pooled := fold_left madd (map (moves_mat %d) %s) (mk %d %d (fun _ _ => 0q)) in (concat (map (fun s => let f := moves_mat %d s in concat (map (fun i => map (fun j => (this (mget f i j), this ((mat_total %d pooled * mget f i j) / (mat_total %d f * mget pooled i j))%%Qc)) (seq 0 %d)) (seq 0 %d))) %s), Z.of_nat (%d * (%d - 1) * (%d - 1))))'%(l,l,k,k,n,l,n,n,n,n,n,n,n,l,n,n,k)));want['ho',i]=c['value'][2:]
for i,c in enumerate(d['assess_theoretical_compatibility_data']):
    n=len(c['states']);s=nl(c['sequence'])
    ev.append((('tc',i),'let p := map (map Q2Qc) %s in let f := moves_mat %d %s in if forallb (fun i => forallb (fun j => negb (Qceqb (mget p i j) 0) || Qceqb (mget f i j) 0) (seq 0 %d)) (seq 0 %d) then Some (concat (map (fun i => map (fun j => (this (mget f i j), this (mget f i j / (sumn %d (fun k => mget f k i) * mget p i j))%%Qc)) (seq 0 %d)) (seq 0 %d)), (Z.of_nat (%d * (%d - 1)) - (Z.of_nat (%d * %d) - Z.of_nat (length (filter (fun x => negb (Qceqb x 0)) (concat p)))))%%Z) else None'%(qm(c['p']),n,s,n,n,n,n,n,n,n,n,n)));want['tc',i]=c['value'][2:]
r=run('',ev,'assess','M_Assess')
ok=bad=0
for k,v in r.items():
    w=want[k]
    if v is not None and not (isinstance(v,tuple) and v and v[0]=='PARSE') and k[0] in('ho','tc'):
        v=(2*sum(float(f)*math.log(x) for f,x in v[0] if f>0),v[1])
    if w[0] in('NaN',None): good=v is None
    else: good=v is not None and close(list(v),w)
    if good: ok+=1
    else: bad+=1;print(k,v,w)
print('assessments',ok,bad)
