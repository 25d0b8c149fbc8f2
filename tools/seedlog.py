# Turns /tmp/seed_out/*.json (tools/seed.py) into lines of seeded/LOG.jsonl; keeps existing lines.
import json,glob,os,sys
spec=json.load(open(sys.argv[1])); out='/verif/seeded/LOG.jsonl'
tight=json.load(open(sys.argv[2])) if len(sys.argv)>2 else {}
done=set()
if os.path.exists(out):
    for l in open(out):
        if l.strip(): done.add(json.loads(l).get('name'))
with open(out,'a') as f:
    for s in spec:
        p='/tmp/seed_out/%s.json'%s['name']
        if s['name'] in done or not os.path.exists(p): continue
        r=json.load(open(p))['result']
        if 'failed' not in r: print('skip',s['name'],r.get('error','')[:200]); continue
        f.write(json.dumps(dict(name=s['name'],definition=s['file']+':'+s['definition'],edit=s['edit'],claim=s['claim'],
           theorems_failed=r['failed'],lemmas_failed=r['cuts'],theorems_tightened=tight.get(s['name'],[])))+'\n')
        cid=s['claim'].split(':')[0]
        print(s['name'],'|',s['claim'],'|',[x for x in r['failed'] if any(c in x for c in cid.replace(',',' ').split())])
