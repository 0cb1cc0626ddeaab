"""Append results of a seeded-bug run (JSON lines of the harness) to seeded/LOG.jsonl."""
import json, sys
NOTE = {"matched_reps#1": "equivalent mutant: the self-edge rule at the boundary gives the same hafnian, only the worked example on literals changes; no theorem should fail"}
with open('seeded/LOG.jsonl', 'a') as f:
    for l in open(sys.argv[1]):
        d = json.loads(l)
        r = dict(definition=d['definition'], edit=d['edit'], claim=d['claim_broken'], theorems_failed=d['failed'], theorems_tightened=d.get('tightened', []))
        if d['name'] in NOTE: r['note'] = NOTE[d['name']]
        if d.get('note'): r['note'] = d['note']
        f.write(json.dumps(r) + '\n')
