"""Generates rocq/theories/PropSign.v: C115, a theorem per operation."""
src=open('/verif/tools/gen_rel.py').read()
exec(src[:src.index('out=[]')])
XS="xyz"
YS="XYZ"
out=[]
w=out.append
w(open('/verif/tools/sign_head.txt').read())
def pre(k): return "" if k[0]=='s' else k[0]+"_"
def fam(title,ctx,name,left,right,args,orel,drel,borel,bdrel):
    w(f"""Local Open Scope nat_scope.
(* ------------------------------------------------------------------------- *)
(** * {title} *)
Section {name}.
  Context {ctx}.
""")
    def D(k,u,x): return f"{pre(k)}{args} {u} {x}"
    def B(k,u,x): return f"{pre(k)}bare {u} {x}"
    for (n,t,ks,r,need,ex) in OPS:
        if need=="rem" or not ks: continue
        m=range(len(ks)); a=[NAMES[i] for i in m]; b=[XS[i] for i in m]; c=[YS[i] for i in m]
        e=t.format(*a,o=left); f=t.format(*b,o=right); g=t.format(*c,o=right)
        ds=arrows([B(k,a[i],b[i]) for i,k in enumerate(ks)])+arrows([D(k,a[i],c[i]) for i,k in enumerate(ks)])
        vs=(ex.split() if ex else [])+a+b+c+["r"]
        d={"":"","div":" "+drel}[need]; bd={"":"","div":" "+bdrel}[need]
        w(f"  Theorem {name}_{n} : forall {' '.join(vs)}, {arrows(hyplist(ks))}{ds}{e} = Ok r ->")
        w(f"    (exists s, {f} = Ok s /\\ {B(r,'r','s')}) /\\ exists s, {g} = Ok s /\\ {D(r,'r','s')}.")
        w(f"  Proof. intros. split; [eapply {rel(r)}_out; [|eassumption]; eapply ({lem(n)}{P(n,' '+borel)}{bd}); ex_args|eapply {rel(r)}_out; [|eassumption]; eapply ({lem(n)}{P(n,' '+orel)}{d}); ex_args]. Qed.")
    w(f"End {name}.\n")
fam("C115: changing signs changes only signs, for all floats including infinities and NaN",
    "(prec emax : Z) (rem : spec_float -> spec_float -> spec_float)",
    "C115_signs","(unit_ops (sf_ops prec emax rem) sign_units)","(sf_ops prec emax rem)","signed","(@sign_rel prec emax rem)","(@sign_divrel prec emax rem)","(bare_unit_rel (sf_ops prec emax rem) sign_units)","(@bare_unit_divrel _ _ (sf_ops prec emax rem) sign_units)")
w(open('/verif/tools/sign_tail.txt').read())
open('/verif/rocq/theories/PropSign.v','w').write("\n".join(out))
