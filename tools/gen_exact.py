"""Generates rocq/theories/PropExact.v: C91 and C92, one theorem per operation."""
import re
src=open('/verif/tools/gen_rel.py').read()
exec(src[:src.index('out=[]')])
XS="xyz"
out=[]
w=out.append
w(open('/verif/tools/exact_head.txt').read())
def den(k,u,x,f): return {'s':f"{f} {u} {x}",'v':f"v_{f} {u} {x}",'m':f"m_{f} {u} {x}",'c':f"c_{f} {u} {x}",'q':f"q_{f} {u} {x}"}[k[0]]
def D(k,u,x): 
    p="" if k[0]=='s' else k[0]+"_"
    return f"{p}denotes prec emax {u} {x}"
def I(k,u,x):
    return f"is_int prec emax {x} {u}" if k[0]=='s' else f"{k[0]}_ints prec emax {u} {x}"
def fx(ex,ks):
    n=len(ks)
    vs=(ex.split() if ex else [])+list(NAMES[:n])+list(XS[:n])+["r"]
    return "forall "+" ".join(vs)+", "
w('''(* ------------------------------------------------------------------------- *)
(** * C91: if no operation needs rounding, the result is exact                 *)
Section C91.
  Context (prec emax : Z) (rem : spec_float -> spec_float -> spec_float) (Hp : (0 < prec)%Z) (He : (prec < emax)%Z).
  Local Notation fo := (sf_ops prec emax rem).
  Local Notation exact := (exact_ops Hp He).
''')
cnt=0
for (n,t,ks,r,need,ex) in OPS:
    if need=="rem" or not ks: continue
    cnt+=1
    a=[NAMES[i] for i in range(len(ks))]; b=[XS[i] for i in range(len(ks))]
    e=t.format(*a,o="exact"); rr=t.format(*a,o="r_ops"); f=t.format(*b,o="fo")
    ds=arrows([D(k,a[i],b[i]) for i,k in enumerate(ks)])
    d={"":"","div":" (exact_divrel rem Hp He)"}[need]; d2={"":"","div":" (exact_real_div Hp He)"}[need]
    w(f"  Theorem C91_{n} : {fx(ex,ks)}{arrows(hyplist(ks))}{ds}{e} = Ok r -> {rr} = Ok r /\\ exists s, {f} = Ok s /\\ {D(r,'r','s')}.")
    w(f"  Proof. intros. split. {{ eapply {rel(r)}_lax; [eapply ({lem(n)}{P(n,' (exact_real Hp He)')}{d2}); lax_args|eassumption]. }} eapply {rel(r)}_out; [|eassumption]. eapply ({lem(n)}{P(n,' (exact_rel rem Hp He)')}{d}); ex_args. Qed.")
w("End C91.\n")
w('''(* ------------------------------------------------------------------------- *)
(** * C92: integers that do not overflow a word of [prec + 1] bits are exact as floats *)
Section C92.
  Context (prec emax : Z) (rem : spec_float -> spec_float -> spec_float) (Hp : (0 < prec)%Z) (He : (prec < emax)%Z).
  Context (signed : bool) (w : Z) (Hw : width signed w) (Hfit : (w <= prec + if signed then 1 else 0)%Z).
  Local Notation fo := (sf_ops prec emax rem).
  Local Notation checked := (checked_ops signed w).
''')
for (n,t,ks,r,need,ex) in OPS:
    if need or not ks: continue
    a=[NAMES[i] for i in range(len(ks))]; b=[XS[i] for i in range(len(ks))]
    e=t.format(*a,o="checked"); f=t.format(*b,o="fo")
    ds=arrows([I(k,a[i],b[i]) for i,k in enumerate(ks)])
    w(f"  Theorem C92_{n} : {fx(ex,ks)}{arrows(hyplist(ks))}{ds}{e} = Ok r -> exists s, {f} = Ok s /\\ {I(r,'r','s')}.")
    w(f"  Proof. intros. eapply {rel(r)}_out with (R := fun n f => is_int prec emax f n); [|eassumption]. eapply ({lem(n)}{P(n,' (@int_rel prec emax rem Hp He signed w Hw Hfit)')}); ex_args. Qed.")
w("End C92.\n")
w(open('/verif/tools/exact_tail.txt').read())
open('/verif/rocq/theories/PropExact.v','w').write("\n".join(out))
