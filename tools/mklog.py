#!/usr/bin/env python3
"""seeded/mutations.json + seeded/results.jsonl -> seeded/LOG.jsonl (one line per wrong program tried)."""
import json, os, sys
D = os.path.join(os.path.dirname(os.path.abspath(__file__)), '..', 'seeded')
muts = {m['id']: m for m in json.load(open(D + '/mutations.json'))}
tight = json.load(open(D + '/tightened.json')) if os.path.exists(D + '/tightened.json') else {}
out, seen = [], {}
for l in open(D + '/results.jsonl'):
    r = json.loads(l); seen[r['id']] = r
for i in sorted(seen, key=lambda s: int(s[1:])):
    r, m = seen[i], muts[i]
    edit = '; '.join("%s: '%s' -> '%s'" % (e['def'], e['old'], e['new']) for e in m['edits'])
    out.append({"id": i, "definition": m['file'] + ': ' + ', '.join(sorted({e['def'] for e in m['edits']})), "edit": m['desc'] + ' (' + edit + ')',
                "claim": m['claim'], "failed": r['failed'], "broken_lemmas": r['admitted'], "still_proved": r['n_hold'],
                "tightened": tight.get(i, {}).get('theorems', []), "note": tight.get(i, {}).get('note', '')})
open(D + '/LOG.jsonl', 'w').write(''.join(json.dumps(o) + '\n' for o in out))
print(len(out), 'entries;', [o['id'] for o in out if not o['failed']], 'undetected')
