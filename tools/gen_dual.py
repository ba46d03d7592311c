"""Generates rocq/theories/PropDual.v: C116, one theorem per operation without division; the others are in dual_tail.txt."""
src=open('/verif/tools/gen_rel.py').read()
exec(src[:src.index('out=[]')])
out=[]
w=out.append
w(open('/verif/tools/dual_head.txt').read())
CU="UVW"
def pre(k): return "" if k[0]=='s' else k[0]+"_"
def at(k,x,t): return f"({x} {t})" if k[0]=='s' else f"({k[0]}_at {t} {x})"
def stm(n,t,ks,r,need,ex,time):
    m=range(len(ks)); a=[NAMES[i] for i in m]; c=[CU[i] for i in m]
    d=t.format(*a,o="dual_ops"); e0=t.format(*[at(k,c[i],"t0") for i,k in enumerate(ks)],o="r_ops"); et=t.format(*[at(k,c[i],"t") for i,k in enumerate(ks)],o="r_ops")
    hl=[h for h in (hyp(k,c[i]) for i,k in enumerate(ks)) if h]
    ms=arrows([f"{pre(k)}moves t0 {c[i]} {a[i]}" for i,k in enumerate(ks)])
    vs=(ex.split() if ex else [])+c+a+["s"]
    cond="forall t, " if not time else "near t0 (fun t => "
    W="W t" if r[0]=='s' else f"{r[0]}_at t W"
    return f"""  Theorem C116_{n} : forall {' '.join(vs)}, {arrows(hl)}{ms}{e0} = Ok s ->
    exists r W, {d} = Ok r /\\ {pre(r)}moves t0 W r /\\ {cond}{et} = Ok ({W}){')' if time else ''}.""", d, et
w("""Local Open Scope nat_scope.
(* ------------------------------------------------------------------------- *)
(** * C116: without division *)
Section C116.
  Context (t0 : R).
  Local Notation mv := (fun d c => moves t0 c d).
""")
for (n,t,ks,r,need,ex) in OPS:
    if need or not ks: continue
    s,d,et=stm(n,t,ks,r,need,ex,False)
    w(s)
    cv=t.format(*[CU[i] for i in range(len(ks))],o="curve_ops")
    lif={'s':"fst",'v':"(map fst)",'m':"(map (map fst))",'c':"(c_map fst)",'q':"(q_map fst)"}[r[0]]
    att={'s':"(fun t (c : R -> R) => c t)",'v':"v_at",'m':"m_at",'c':"c_at",'q':"q_at"}[r[0]]
    w(f"""  Proof.
    intros. prep. turn (@both t0 _ _ _ _ ({d}) ({cv}) {lif} {att} (fun t => {et}) s ltac:(eapply (rr_{n} (moves_rel t0)); eassumption)
      ltac:(intros t; cbv beta; unfold m_at, v_at, c_at, q_at; eapply (C72_{n} (curve_hom t)); eassumption) ltac:(cbv beta; ats; eapply (C72_{n} dual_hom); eassumption) ltac:(assumption)).
  Qed.""")
w("End C116.\n")
import sys
w(open('/verif/tools/dual_tail.txt').read())
open('/verif/rocq/theories/PropDual.v','w').write("\n".join(out))
if len(sys.argv)>1:
    for (n,t,ks,r,need,ex) in OPS:
        if need=="div": print(stm(n,t,ks,r,need,ex,True)[0])
