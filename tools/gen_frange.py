"""Generates rocq/theories/PropFRange.v: C110, one theorem per operation."""
src=open('/verif/tools/gen_rel.py').read()
exec(src[:src.index('out=[]')])
XS="xyz"
out=[]
w=out.append
w(open('/verif/tools/frange_head.txt').read())
def D(k,u,x):
    p="" if k[0]=='s' else k[0]+"_"
    return f"{p}fin prec emax {u} {x}"
w('''Local Open Scope nat_scope.
(* ------------------------------------------------------------------------- *)
(** * C110: if interval arithmetic in the same format finds no overflow, there is none; the result is inside the computed range *)
Section C110.
  Context (prec emax : Z) (rem : spec_float -> spec_float -> spec_float) (Hp : (0 < prec)%Z) (He : (prec < emax)%Z).
  Local Notation fo := (sf_ops prec emax rem).
  Local Notation ranges := (frange_ops prec emax).
''')
for (n,t,ks,r,need,ex) in OPS:
    if need=="rem" or not ks: continue
    a=[NAMES[i] for i in range(len(ks))]; b=[XS[i] for i in range(len(ks))]
    e=t.format(*a,o="ranges"); f=t.format(*b,o="fo")
    ds=arrows([D(k,a[i],b[i]) for i,k in enumerate(ks)])
    vs=(ex.split() if ex else [])+a+b+["r"]
    d={"":"","div":" (frange_divrel rem Hp He)"}[need]
    w(f"  Theorem C110_{n} : forall {' '.join(vs)}, {arrows(hyplist(ks))}{ds}{e} = Ok r -> exists s, {f} = Ok s /\\ {D(r,'r','s')}.")
    w(f"  Proof. intros. eapply {rel(r)}_out; [|eassumption]. eapply ({lem(n)}{P(n,' (frange_rel rem Hp He)')}{d}); ex_args. Qed.")
w("End C110.\nLocal Open Scope R_scope.\n")
w(open('/verif/tools/frange_tail.txt').read())
open('/verif/rocq/theories/PropFRange.v','w').write("\n".join(out))
