#!/usr/bin/env python3
"""seeded/LOG.jsonl from the output of mutate.py (post-processed: /tmp/post.json)."""
import json, sys, os
T = {  # gaps the campaign showed, and the theorems added or tightened because of them
 'M094': ['C23_row_write'], 'M179': ['C84_equality'], 'M193': ['C84_equality', 'C84_equality_decides'],
 'M196': ['C09_complex_quaternion_mul_div'], 'M228': ['C09_complex_quaternion_mul_div'], 'M229': ['C09_complex_quaternion_mul_div'],
 'M203': ['C84_quaternion_parts'], 'M224': ['C43_sum_product'], 'M225': ['C43_sum_product'], 'M231': ['C81_moebius'],
 'M308': ['C84_text'], 'M244': ['C55_formulas'], 'M245': ['C55_formulas'], 'M246': ['C56_formulas'], 'M253': ['C57_formulas'],
 'M769': ['C04_scan_values'],
 'M289': ['C81_affine'], 'M341': ['C09_panic_contents'], 'M641': ['C15_normalize_zero_length', 'C15_normalize_zeros'],
}
EQ = {  # edits that change no observable behaviour
 'M354': 'equivalent: the vectors are used up and dropped, so the state left behind after None is never read',
 'M363': 'equivalent: the iterators behind it yield N items for every pair of vectors of length N, so the arm is unreachable',
 'M503': 'control: an equivalent program',
 'M660': 'control: an equivalent program; the proofs that compute with the text of the definition fail, their claims hold',
 'M662': 'control: equal for numbers; the theorems for arbitrary max and for NaN and signed zeros fail',
 'M758': 'control: an equivalent program', 'M759': 'control: an equivalent program', 'M772': 'control: an equivalent program',
 'M668': 'control: equal for commutative scalars; not for others',
}
ex = os.path.join(os.path.dirname(os.path.abspath(__file__)), '..', 'seeded', 'tightened.json')
if os.path.exists(ex): T.update(json.load(open(ex)))
R = json.load(open(sys.argv[1]))
out = open(os.path.join(os.path.dirname(ex), 'LOG.jsonl'), 'w')
n = 0
for k in sorted(R):
    j = R[k]
    if 'error' in j: continue
    f = j.get('failed2', j['failed'])
    cs = {x.split('_')[0] for x in f}
    pr = [c for c in j['expect'] if c in cs] or sorted(cs)[:1] or j['expect']
    out.write(json.dumps({'id': k, 'definition': 'rocq/theories/%s.v: %s' % (j['file'], j['def']),
      'edit': '%s  ==>  %s' % (j['old'], j['new']), 'claim_broken': j['claim'], 'properties': pr,
      'theorems_failed': f[:40], 'theorems_failed_count': len(f), 'lemmas_failed_directly': j['direct'][:20],
      'theorems_tightened': T.get(k, []),
      'note': 'the first run left this bug undetected; the listed theorems were added and the run repeated' if k in T else EQ.get(k, '')}) + '\n'); n += 1
print(n)
