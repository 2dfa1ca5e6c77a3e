#!/usr/bin/env python3
"""Turn the results of the seeded-bug harness (one JSON object per mutant) into seeded/LOG.jsonl lines."""
import json,sys
TIGHT={('C118','f_resample_python'):['C118_never_refused'],('C24','mix_resample'):['C24_weight_model_update'],('C36','mf_update_lambda0'):['C36_stochastic_rule'],
 ('C45','ss_sweep'):['C81_spike_and_slab_sweep'],('C48','s_W'):['C48_reported_parameters'],('C65','sample_nig'):['C65_draw_factorises'],('C85','meanfieldupdate_p'):['C85_histories_finite_partial'],('C74','del_nth'):['C74_nodes_in_lockstep']}
man={c['property']:c['theorems'] for c in json.load(open('/verif/MANIFEST.json'))['claims']}
n=s=0
for f in sys.argv[1:]:
    for l in open(f):
        r=json.loads(l); m=r['mut']
        if r.get('err') and not r.get('admitted'):
            if 'not found' in r['err'] or 'times' in r['err']: continue
        if r.get('err'):
            print('ERR',m['prop'],m['edit'],r['err'][:100],file=sys.stderr); continue
        n+=1
        o=dict(definition='%s.%s'%(m['file'],m['definition']),edit=m['edit'],old=m['old'],new=m['new'],claim_broken='%s: %s'%(m['prop'],m['breaks']),
               theorems_failed=r['failed'],theorems_tightened=[])
        own=[t for t in r['failed'] if t in man[m['prop']]]
        if not own:
            s+=1; print('SURV',m['prop'],m['file'],m['definition'],m['edit'],r['failed'],r['admitted'][:5],file=sys.stderr)
            o['theorems_tightened']=TIGHT.get((m['prop'],m['definition']),[])
            if 'note' in m: o['note']=m['note']
        print(json.dumps(o))
print(n,s,file=sys.stderr)
