"""Generates rocq/theories/PropBound.v: C93, one theorem per operation."""
src=open('/verif/tools/gen_rel.py').read()
exec(src[:src.index('out=[]')])
XS="xyz"
out=[]
w=out.append
w(open('/verif/tools/bound_head.txt').read())
def D(k,u,x): 
    p="" if k[0]=='s' else k[0]+"_"
    return f"{p}within prec emax {u} {x}"
def fx(ex,ks):
    n=len(ks)
    vs=(ex.split() if ex else [])+list(NAMES[:n])+list(XS[:n])+["r"]
    return "forall "+" ".join(vs)+", "
w('''(* ------------------------------------------------------------------------- *)
(** * C93: the running error bound holds                                       *)
Section C93.
  Context (prec emax : Z) (rem : spec_float -> spec_float -> spec_float) (Hp : (0 < prec)%Z) (He : (prec < emax)%Z).
  Local Notation fo := (sf_ops prec emax rem).
  Local Notation bound := (bound_ops prec emax).
''')
for (n,t,ks,r,need,ex) in OPS:
    if need=="rem" or not ks: continue
    a=[NAMES[i] for i in range(len(ks))]; b=[XS[i] for i in range(len(ks))]
    e=t.format(*a,o="bound"); rr=t.format(*[app(k,"fst",a[i]) for i,k in enumerate(ks)],o="r_ops"); f=t.format(*b,o="fo")
    ds=arrows([D(k,a[i],b[i]) for i,k in enumerate(ks)])
    d={"":"","div":" (bound_divrel rem Hp He)"}[need]; d2={"":"","div":" (@bound_real_div prec emax)"}[need]
    w(f"  Theorem C93_{n} : {fx(ex,ks)}{arrows(hyplist(ks))}{ds}{e} = Ok r -> {rr} = Ok ({lift(r,'fst')} r) /\\ exists s, {f} = Ok s /\\ {D(r,'r','s')}.")
    w(f"  Proof. intros. split. {{ eapply {rel(r)[0]}_lax_hom; [|eassumption]. eapply ({lem(n)}{P(n,' (@bound_real prec emax)')}{d2}); bd_args. }} eapply {rel(r)}_out; [|eassumption]. eapply ({lem(n)}{P(n,' (bound_rel rem Hp He)')}{d}); ex_args. Qed.")
w("End C93.\n")
w(open('/verif/tools/bound_tail.txt').read())
open('/verif/rocq/theories/PropBound.v','w').write("\n".join(out))
