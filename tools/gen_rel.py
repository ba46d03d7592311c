"""Generates rocq/theories/PropRel.v: C70 - C72, one theorem per operation."""
# (name, template of the call with {o} and {0},{1}.. , argument kinds, result kind, needs, extra binder)
OPS = [
 ("v_zero","v_zero {o} N",[], "v N","", "N"),
 ("v_add","v_add {o} N {0} {1}",["v N","v N"],"v N","","N"),
 ("v_sub","v_sub {o} N {0} {1}",["v N","v N"],"v N","","N"),
 ("v_mul","v_mul {o} N {0} {1}",["v N","v N"],"v N","","N"),
 ("v_neg","v_neg {o} {0}",["v N"],"v N","","N"),
 ("v_smul","v_smul {o} {0} {1}",["v N","s"],"v N","","N"),
 ("v_sum","v_sum {o} {0}",["v N"],"s","","N"),
 ("v_dot","v_dot {o} N {0} {1}",["v N","v N"],"s","","N"),
 ("v_square_length","v_square_length {o} {0}",["v N"],"s","","N"),
 ("v_cross2","v_cross2 {o} {0} {1}",["v 2","v 2"],"s","",""),
 ("v_cross3","v_cross3 {o} {0} {1}",["v 3","v 3"],"v 3","",""),
 ("v_cross4","v_cross4 {o} {0} {1}",["v 4","v 4"],"v 4","",""),
 ("v_div","v_div {o} N {0} {1}",["v N","v N"],"v N","div","N"),
 ("v_sdiv","v_sdiv {o} {0} {1}",["v N","s"],"v N","div","N"),
 ("v_rem","v_rem {o} N {0} {1}",["v N","v N"],"v N","rem","N"),
 ("m_zero","m_zero {o} M N",[],"m M N","","M N"),
 ("m_one","m_one {o} N",[],"m N N","","N"),
 ("m_add","m_add {o} M N {0} {1}",["m M N","m M N"],"m M N","","M N"),
 ("m_sub","m_sub {o} M N {0} {1}",["m M N","m M N"],"m M N","","M N"),
 ("m_mul","m_mul {o} M N {0} {1}",["m M N","m M N"],"m M N","","M N"),
 ("m_neg","m_neg {o} {0}",["m M N"],"m M N","","M N"),
 ("m_smul","m_smul {o} {0} {1}",["m M N","s"],"m M N","","M N"),
 ("m_sum","m_sum {o} {0}",["m M N"],"s","","M N"),
 ("m_div","m_div {o} M N {0} {1}",["m M N","m M N"],"m M N","div","M N"),
 ("m_sdiv","m_sdiv {o} {0} {1}",["m M N","s"],"m M N","div","M N"),
 ("m_rem","m_rem {o} M N {0} {1}",["m M N","m M N"],"m M N","rem","M N"),
 ("m_dot","m_dot {o} L M N {0} {1}",["m L M","m M N"],"m L N","","L M N"),
 ("m_dot_v","m_dot_v {o} M N {0} {1}",["m M N","v N"],"v M","","M N"),
 ("v_dot_m","v_dot_m {o} M N {0} {1}",["v M","m M N"],"v N","","M N"),
 ("m_outer","m_outer {o} M N {0} {1}",["v M","v N"],"m M N","","M N"),
 ("m_det","m_det {o} N {0}",["m N N"],"s","","N"),
 ("m_cofactor","m_cofactor {o} N {0} i j",["m N N"],"s","","N i j"),
 ("m_adj","m_adj {o} N {0}",["m N N"],"m N N","","N"),
 ("m_inv","m_inv {o} N {0}",["m N N"],"m N N","div","N"),
 ("c_add","c_add {o} {0} {1}",["c","c"],"c","",""),
 ("c_sub","c_sub {o} {0} {1}",["c","c"],"c","",""),
 ("c_mul","c_mul {o} {0} {1}",["c","c"],"c","",""),
 ("c_neg","c_neg {o} {0}",["c"],"c","",""),
 ("c_conj","c_conj {o} {0}",["c"],"c","",""),
 ("c_mul_s","c_mul_s {o} {0} {1}",["c","s"],"c","",""),
 ("c_norm_sqr","c_norm_sqr {o} {0}",["c"],"s","",""),
 ("c_dot","c_dot {o} {0} {1}",["c","c"],"s","",""),
 ("c_inv","c_inv {o} {0}",["c"],"c","div",""),
 ("c_div","c_div {o} {0} {1}",["c","c"],"c","div",""),
 ("q_add","q_add {o} {0} {1}",["q","q"],"q","",""),
 ("q_sub","q_sub {o} {0} {1}",["q","q"],"q","",""),
 ("q_mul","q_mul {o} {0} {1}",["q","q"],"q","",""),
 ("q_neg","q_neg {o} {0}",["q"],"q","",""),
 ("q_conj","q_conj {o} {0}",["q"],"q","",""),
 ("q_mul_s","q_mul_s {o} {0} {1}",["q","s"],"q","",""),
 ("q_mul_c","q_mul_c {o} {0} {1}",["q","c"],"q","",""),
 ("c_mul_q","c_mul_q {o} {0} {1}",["c","q"],"q","",""),
 ("q_norm_sqr","q_norm_sqr {o} {0}",["q"],"s","",""),
 ("q_dot","q_dot {o} {0} {1}",["q","q"],"s","",""),
 ("q_inv","q_inv {o} {0}",["q"],"q","div",""),
 ("q_div","q_div {o} {0} {1}",["q","q"],"q","div",""),
 ("rot2_apply","rot2_apply {o} {0} {1}",["c","v 2"],"v 2","",""),
 ("rot3_apply","rot3_apply {o} {0} {1}",["q","v 3"],"v 3","",""),
 ("mo_apply_self","mo_apply_self {o} {0} {1}",["m 2 2","s"],"s","div",""),
]
NAMES="uvw"
def hyp(k,x):
    if k[0]=='v': return f"length {x} = {k.split()[1]}"
    if k[0]=='m':
        _,a,b=k.split(); return f"rect {a} {b} {x}"
    return None
def rng(k,x,f):
    return {'s':f"{f} {x}",'v':f"Forall {f} {x}",'m':f"Forall (Forall {f}) {x}",'c':f"c_all {f} {x}",'q':f"q_all {f} {x}"}[k[0]]
def lift(k,h):
    return {'s':h,'v':f"map {h}",'m':f"map (map {h})",'c':f"c_map {h}",'q':f"q_map {h}"}[k[0]]
def app(k,h,x):
    l=lift(k,h); return f"({l} {x})"
def lem(n): return "rr_"+n
def par(x): return f'({x})' if ' ' in x else x
NOP={"v_div","v_sdiv","m_div","m_sdiv","v_rem","m_rem"}
def P(n,p): return "" if n in NOP else p
def arrows(hs): return "".join(h+" -> " for h in hs)
def hyplist(kinds):
    return [h for h in (hyp(k,NAMES[i]) for i,k in enumerate(kinds)) if h]
def fa(extra,kinds,more=""):
    vs=(extra.split() if extra else [])+[NAMES[i] for i in range(len(kinds))]+(more.split() if more else [])
    return "forall "+" ".join(vs)+", " if vs else ""
def rel(kind):
    k=kind.split()
    return {'s':"s_rel",'v':"v_rel",'m':"m_rel",'c':"c_rel",'q':"q_rel"}[k[0]]
out=[]
w=out.append
w(open('/verif/tools/rel_head.txt').read())
# ---------------- C72
w('''(* ------------------------------------------------------------------------- *)
(** * C72                                                                      *)
Section C72.
  Context {T U : Type} (h : T -> U) (o : Ops T) (o' : Ops U) (H : hom h o o').
''')
for div in ("","div","rem"):
    if div: w(f"  Context (H{div} : hom_{div} h o o').\n")
    for (n,t,ks,r,need,ex) in OPS:
        if need!=div: continue
        lhs=t.format(*[app(k,"h",NAMES[i]) for i,k in enumerate(ks)],o="o'")
        rhs=t.format(*[NAMES[i] for i in range(len(ks))],o="o")
        w(f"  Theorem C72_{n} : {fa(ex,ks)}{arrows(hyplist(ks))}{lhs} = rmap {par(lift(r,'h'))} ({rhs}).")
        d={"":"","div":" (hom_divrel Hdiv)","rem":" (hom_remrel Hrem)"}[need]
        w(f"  Proof. intros. eapply {rel(r)}_hom. eapply ({lem(n)}{P(n,' (hom_rel H)')}{d}); hom_args. Qed.")
w("End C72.\n")
w(open('/verif/tools/rel_hom.txt').read())
# ---------------- C70
w('''(* ------------------------------------------------------------------------- *)
(** * C70                                                                      *)
Section C70.
  Context (signed : bool) (w : Z).
  Local Notation checked := (checked_ops signed w).
''')
for (n,t,ks,r,need,ex) in OPS:
    a=[NAMES[i] for i in range(len(ks))]
    c=t.format(*a,o="checked"); e=t.format(*a,o="z_ops")
    w(f"  Theorem C70_{n} : {fa(ex,ks,'r')}{arrows(hyplist(ks))}{c} = Ok r -> {e} = Ok r.")
    d={"":"","div":" (@checked_divrel signed w)","rem":" (checked_remrel signed w)"}[need]
    w(f"  Proof. intros. eapply {rel(r)}_lax; [eapply ({lem(n)}{P(n,' (@checked_rel signed w)')}{d}); lax_args|eassumption]. Qed.")
w("End C70.\n")
w(open('/verif/tools/rel_chk.txt').read())
# ---------------- C71
w('''(* ------------------------------------------------------------------------- *)
(** * C71                                                                      *)
Section C71.
  Context (signed : bool) (w : Z) (Hw : width signed w).
  Local Notation wrapping := (wrapping_ops signed w).
  Local Notation wr := (wrap signed w).
  Local Notation fits := (in_word signed w).
''')
for (n,t,ks,r,need,ex) in OPS:
    if need: continue
    a=[NAMES[i] for i in range(len(ks))]
    c=t.format(*a,o="wrapping"); e=t.format(*a,o="z_ops")
    fit=[rng(k,NAMES[i],"fits") for i,k in enumerate(ks)]
    w(f"  Theorem C71_{n} : {fa(ex,ks)}{arrows(hyplist(ks))}{arrows(fit)}{c} = rmap {par(lift(r,'wr'))} ({e}).")
    rw=" ".join(f"pose proof (@{ {'s':'wr_s','v':'wr_v','m':'wr_m','c':'wr_c','q':'wr_q'}[k[0]]} signed w Hw {NAMES[i]} ltac:(assumption)) as E{i}." for i,k in enumerate(ks))
    pr=f"pose proof (@C72_{n} _ _ wr z_ops wrapping (@wrap_hom signed w Hw)) as X. "
    vs=" ".join((ex.split() if ex else [])+a)
    hy=len(hyplist(ks))
    pr+=f"specialize (X{' '+vs if vs else ''}{' ltac:(assumption)'*hy}). " if vs or hy else ""
    pr+="".join(f"rewrite E{i} in X. " for i in range(len(ks)))+"exact X."
    w(f"  Proof. intros. {rw} {pr} Qed.")
w('''
  (** Debug and release builds agree unless the debug build panics. *)''')
for (n,t,ks,r,need,ex) in OPS:
    a=[NAMES[i] for i in range(len(ks))]
    c=t.format(*a,o="(checked_ops signed w)"); e=t.format(*a,o="wrapping")
    w(f"  Theorem C71_release_{n} : {fa(ex,ks,'r')}{arrows(hyplist(ks))}{c} = Ok r -> {e} = Ok r.")
    d={"":"","div":" (checked_wrap_divrel signed w)","rem":" (checked_wrap_remrel signed w)"}[need]
    w(f"  Proof. intros. eapply {rel(r)}_lax; [eapply ({lem(n)}{P(n,' (@checked_wrap_rel signed w Hw)')}{d}); lax_args|eassumption]. Qed.")
w("End C71.\n")
w(open('/verif/tools/rel_tail.txt').read())
open('/verif/rocq/theories/PropRel.v','w').write("\n".join(out))
