"""Append results of tools/mutate.py to seeded/LOG.jsonl.  usage: mutlog.py results.jsonl"""
import json, sys
with open('/verif/seeded/LOG.jsonl', 'a') as out:
    for l in open(sys.argv[1]):
        d = json.loads(l); m = d['m']
        out.write(json.dumps({
            'definition': m['def'], 'file': m['file'],
            'edit': '%s: replaced `%s` by `%s`' % (m['edit'], m['old'], m['new']),
            'claim_broken': m['claim'],
            'theorems_failed': d['fails'],
            'detected': bool(d['fails']),
            'theorems_tightened': m.get('tightened', []),
            'note': m.get('note', 'first failing lemma of the proof of the claim; everything after it is not reached'),
        }) + '\n')
