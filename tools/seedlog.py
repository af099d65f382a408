"""Rebuilds seeded/LOG.jsonl from the scratch results in /tmp/seed (not needed to check the proofs)."""
import json,os,re,sys
sys.path.insert(0,'/tmp/seed')
from muts import M
import wits
tight={'CB08':['added C55_map'],'CB10':['added C55_remove_while_walking'],'SM01':['added C56_same_table'],'SM02':['added C56_same_table'],'SM03':['added C56_same_table'],'SM04':['added C56_same_table'],'R05':['added C54_table_memory'],'R01':['added C53_diff_shared, C53_diff_after_changes'],'R02':['added C53_diff_shared, C53_diff_after_changes'],'R03':['added C53_diff_shared, C53_diff_after_changes'],'R04':['added C53_diff_after_changes'],'Q01':['added C52_insert_partial'],'Q02':['added C52_insert_partial'],'Q03':['added C52_remove'],'Q04':['added C52_remove'],'Q05':['added C52_remove'],'Q06':['added C52_remove'],'Q07':['added C52_remove'],'Q08':['added C52_remove'],'Q09':['added C52_remove6'],'Q10':['added C52_insert6_partial'],'Q11':['added C52_remove6'],'T03':['C14_diff_order_partial -> C14_diff_order_exact_partial'],'T21':['C14_diff_order_partial -> C14_diff_order_exact_partial'],
'V22':['added C48_table_is_a_map'],'U23':['added C48_best_fit'],'U31':['added C48_clone'],'U34':['added C48_build'],'U35':['added C48_uninitialised_set'],'U37':['added C48_range_contains'],
'T25':['added C17_single_value_partial'],'A01':['added C17_single_value_partial, C16_aggregate_function'],'A05':['added C17_single_value_partial']}
note={'V22':'when first tried, before package ipv6 had its own trie model, no claim was about this function; C48_table_is_a_map was added and is refuted in the mutant','T31':'claim stays true: inactive nodes always have two non-empty children',
'S11':'claim stays true: active nodes of a set have no children','I03':'claim stays true: the callee rejects the same inputs'}
out=[]
for x in M:
    w=wits.W.get(x['id']) or x['wit'] or ''
    ref=sorted(set(re.findall(r'\bC\d\d_\w+',w)))
    if x['id'][0]=='N': ref=['C38_tables_partial'] if x['id'] in('N01','N02') else ['C21_sets_sequential'] if 'ConcSet' in x['file'] else ['C21_tables_sequential']
    if x['id'][:2]=='CB': ref=[q for q in ref if q[:3]=='C55']
    d={'id':x['id'],'definition':x['file']+': '+x['defn'],'edit':x['old']+'  ==>  '+x['new'],'claim_broken':x['claim']}
    p='/tmp/seed/out/%s.json'%x['id']
    r=json.load(open(p)) if os.path.exists(p) else None
    d['refuted_in_mutant']=ref
    d['theorems_failed']=sorted(set(ref)|set(q for q in (r or {}).get('failed',[]) if q.split('_')[0] in x['broken']))
    if r:
        d['lemmas_whose_proofs_broke']=r['admitted']
        d['properties_whose_theorems_depend_on_them']=sorted({q.split('_')[0] for q in r['failed']})
    d['theorems_tightened']=tight.get(x['id'],[])
    if x['id'] in note: d['note']=note[x['id']]
    elif x['id'] in tight and x['id'][0]=='U': d['note']='no theorem about the pair-level model covered this when the bug was planned; the added theorem is refuted in the mutant'
    elif x['id'] in tight and x['id'][0]=='Q': d['note']='no theorem spoke of this definition until the generated mutants of the first campaign showed it; the added theorem is refuted in the mutant'
    elif x['id'] in tight: d['note']='the theorem as it stood still held of the mutant; the tightened one is refuted in it'
    elif ref: d['note']='False is derived from the listed theorem(s), evaluated on a concrete input, in the mutant'
    else: d['note']='caught because the proofs of the listed theorems no longer go through'
    out.append(d)
import glob
for f in sorted(glob.glob('/tmp/seed/extra_*.jsonl')):
    out+=[json.loads(l) for l in open(f)]
open('/verif/seeded/LOG.jsonl','w').write(''.join(json.dumps(d)+'\n' for d in out))
print(len(out),sum(1 for d in out if not d['theorems_failed']),[d['id'] for d in out if not d['theorems_failed']])
