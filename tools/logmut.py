#!/usr/bin/env python3
"""logmut.py OUT.jsonl [NOTES.json]: append the results of a mutate.py round to seeded/LOG.jsonl.
NOTES maps a mutant id to {"tightened": [...], "note": "..."}."""
import json, sys
notes = json.load(open(sys.argv[2])) if len(sys.argv) > 2 else {}
with open('/verif/seeded/LOG.jsonl', 'a') as out:
    for l in open(sys.argv[1]):
        d = json.loads(l)
        if d['result'] != 'ok':
            print('skipped', d['id'], d['result']); continue
        n = notes.get(d['id'], {})
        out.write(json.dumps({
            'id': d['id'], 'definition': '%s.%s' % (d['file'], d['definition']),
            'edit': '%s: "%s" -> "%s"' % (d['edit'], d['old'], d['new']),
            'claim_broken': d['breaks'], 'claims': d['claims'],
            'theorems_failed': d['failed'], 'claims_not_noticing': d['missed'],
            'theorems_tightened': n.get('tightened', []), 'note': n.get('note', '')}) + '\n')
