"""Generates rocq/theories/PropScale.v: C114, two theorems per operation."""
src=open('/verif/tools/gen_rel.py').read()
exec(src[:src.index('out=[]')])
XS="xyz"
YS="XYZ"
out=[]
w=out.append
w(open('/verif/tools/scale_head.txt').read())
def pre(k): return "" if k[0]=='s' else k[0]+"_"
def fam(title,ctx,name,left,right,args,orel,drel,borel,bdrel):
    w(f"""Local Open Scope nat_scope.
(* ------------------------------------------------------------------------- *)
(** * {title} *)
Section {name}.
  Context {ctx}.
""")
    def D(k,u,x): return f"{pre(k)}{args} {u} {x}"
    def B(k,u,x): return f"{pre(k)}bare {u} {x}"
    for (n,t,ks,r,need,ex) in OPS:
        if need=="rem" or not ks: continue
        m=range(len(ks)); a=[NAMES[i] for i in m]; b=[XS[i] for i in m]; c=[YS[i] for i in m]
        e=t.format(*a,o=left); f=t.format(*b,o=right); g=t.format(*c,o=right)
        ds=arrows([B(k,a[i],b[i]) for i,k in enumerate(ks)])+arrows([D(k,a[i],c[i]) for i,k in enumerate(ks)])
        vs=(ex.split() if ex else [])+a+b+c+["r"]
        d={"":"","div":" "+drel}[need]; bd={"":"","div":" "+bdrel}[need]
        w(f"  Theorem {name}_{n} : forall {' '.join(vs)}, {arrows(hyplist(ks))}{ds}{e} = Ok r ->")
        w(f"    (exists s, {f} = Ok s /\\ {B(r,'r','s')}) /\\ exists s, {g} = Ok s /\\ {D(r,'r','s')}.")
        w(f"  Proof. intros. split; [eapply {rel(r)}_out; [|eassumption]; eapply ({lem(n)}{P(n,' '+borel)}{bd}); ex_args|eapply {rel(r)}_out; [|eassumption]; eapply ({lem(n)}{P(n,' '+orel)}{d}); ex_args]. Qed.")
    w(f"End {name}.\n")
fam("C114: if the units of measurement agree, a change of units changes the result as its unit says",
    "{T G : Type} {o : Ops T} (F : Field o) (un : units G) (k : G -> T) (K : change F un k) (Z : forall x, o_is_zero o x = false -> x <> o_zero o)",
    "C114_units","(unit_ops o un)","o","scaled F k","(unit_rel K)","(unit_divrel K Z)","(bare_unit_rel o un)","(bare_unit_divrel o un)")
fam("C114: changing units by powers of two changes floating point results exactly, if nothing overflows and no product or quotient underflows",
    "(prec emax : Z) (rem : spec_float -> spec_float -> spec_float) (Hp : (0 < prec)%Z) (He : (prec < emax)%Z)",
    "C114_float","(scale_ops prec emax)","(sf_ops prec emax rem)","rescaled prec emax","(scale_rel rem Hp He)","(scale_divrel rem Hp He)","(bare_scale_rel prec emax rem)","(@bare_scale_divrel prec emax rem)")
w(open('/verif/tools/scale_tail.txt').read())
open('/verif/rocq/theories/PropScale.v','w').write("\n".join(out))
