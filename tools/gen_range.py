"""Generates rocq/theories/PropRange.v: C109, one theorem per operation."""
src=open('/verif/tools/gen_rel.py').read()
exec(src[:src.index('out=[]')])
XS="xyz"
out=[]
w=out.append
w(open('/verif/tools/range_head.txt').read())
def D(k,u,x):
    p="" if k[0]=='s' else k[0]+"_"
    return f"{p}inside {u} {x}"
w('''(* ------------------------------------------------------------------------- *)
(** * C109: if interval arithmetic finds no overflow, there is none            *)
Section C109.
  Context (signed : bool) (w : Z) (Hw : width signed w).
  Local Notation ranges := (range_ops signed w).
''')
for (n,t,ks,r,need,ex) in OPS:
    if not ks: continue
    a=[NAMES[i] for i in range(len(ks))]; b=[XS[i] for i in range(len(ks))]
    e=t.format(*a,o="ranges"); f=t.format(*b,o="o")
    ds=arrows([D(k,a[i],b[i]) for i,k in enumerate(ks)])
    vs=(ex.split() if ex else [])+a+b+["r"]
    P1="" if r[0]=='s' else r[0]+"_"
    w(f"  Theorem C109_{n} : forall {' '.join(vs)}, {arrows(hyplist(ks))}{ds}{e} = Ok r -> exact_in signed w (fun o => {f}) ({P1}inside r).")
    d={"":"","div":" (@range_divrel signed w)","rem":" (@range_remrel signed w)"}[need]
    shape="".join(f"assert ({hyp(k,b[i])}) by in_length. " if k[0]=='v' else f"assert ({hyp(k,b[i])}) by in_rect. " if k[0]=='m' else "" for i,k in enumerate(ks))
    w(f"  Proof. intros. {shape}apply exact_in_intro; [|intros s Hs; eapply C70_{n}; eassumption|intros s Hs; eapply C71_release_{n}; eassumption]. eapply {rel(r)}_out; [|eassumption]. eapply ({lem(n)}{P(n,' (@range_rel signed w)')}{d}); ex_args. Qed.")
w("End C109.\n")
w(open('/verif/tools/range_tail.txt').read())
open('/verif/rocq/theories/PropRange.v','w').write("\n".join(out))
