#!/usr/bin/env python3
"""logmut.py OUT [definition=tightened theorem,...]: append mutate.py results to seeded/LOG.jsonl."""
import json,sys
t=dict(a.split('=',1) for a in sys.argv[2:])
with open('/verif/seeded/LOG.jsonl','a') as f:
    for l in open(sys.argv[1]):
        if not l.startswith('{'): continue
        d=json.loads(l)
        tg=t.get(d['definition'],'').split(',') if d['survived'] or not d['theorems_failed'] else []
        f.write(json.dumps({"definition":(d['definition'] if d['definition'].startswith(d['file'][:-1]) else d['file'].replace('.v','')+"."+d['definition']),"edit":d['edit'],"claim":d['claim'],
          "theorems_failed":d['theorems_failed'],"lemmas_failed":d['failed_lemmas'],"theorems_survived_wrongly":d['survived'],"theorems_tightened":tg})+"\n")
