from conf import *
d=json.load(open(FX+'fixtures_properties.json'))
def nx_aperiodic(p,nodes=None):
    # networkx.is_aperiodic, an argument of the model
    nodes=list(range(len(p))) if nodes is None else nodes
    lev={nodes[0]:0}; cur=[nodes[0]]; g=0; l=1
    while cur:
        nxt=[]
        for u in cur:
            for v in nodes:
                if p[u][v]>0:
                    if v in lev: g=math.gcd(g,lev[u]-lev[v]+1)
                    else: lev[v]=l; nxt.append(v)
        cur=nxt; l+=1
    rest=[v for v in nodes if v not in lev]
    return g==1 and (not rest or nx_aperiodic(p,rest))
tot=0;bad=0
for k,x in enumerate(d):
    p=norm(x['p']); n=len(p)
    defs='Definition P0 := qm %s.\nDefinition C0 := mkchain P0 %s.\nDefinition m0 := env C0.\n'%(qm(p),names(n))
    so='(fun r => match r with Ok (Some M) => Some (showm M) | _ => None end)'
    ev=[('density','this (density P0)'),('is_absorbing','is_absorbing P0'),('is_canonical','is_canonical P0 (sccs P0)'),
     ('is_doubly_stochastic','is_doubly_stochastic P0'),('is_ergodic','is_ergodic m0'),('is_reversible','is_reversible m0'),
     ('is_stochastically_monotone','is_stochastically_monotone P0'),('is_symmetric','is_symmetric P0'),
     ('stationary_distributions','match stationary_distributions P0 (sccs P0) with Ok l => map showv l | _ => [] end'),
     ('accessibility_matrix','accessibility_matrix P0'),('adjacency_matrix','adjacency_matrix P0'),('communication_matrix','communication_matrix P0 (sccs P0)'),
     ('fundamental_matrix','%s (fundamental_matrix m0)'%so),
     ('kemeny_constant','match kemeny_constant m0 with Ok (Some k) => Some (this k) | _ => None end'),
     ('incidence_matrix','incidence_matrix P0'),
     ('determinant','this (determinant P0)'),('rank','rank P0'),
     ('period','period P0 %s (nx_default P0) %s'%(names(n),'true' if nx_aperiodic(p) else 'false')),
     ]
    r=run(defs,ev,'p%d'%k,'L_PropsR L_Nnls M_Det')
    for nme,_ in ev:
        tot+=1
        if not close(r.get(nme),x[nme]): bad+=1; print(x['id'],nme,'model',r.get(nme),'fixture',x[nme])
print(tot,'compared',bad,'differ')
