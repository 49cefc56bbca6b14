import json
man={c['property']:c for c in json.load(open('/verif/MANIFEST.json'))['claims']}
props=[json.loads(l) for l in open('/verif/properties.jsonl')]
head=open('/verif/tools/design_head.md').read()
rows="| id | property | theorems |\n|---|---|---|\n"
for p in props:
    m=man[p['id']]
    rows+=f"| {p['id']} | {p['title']} | {', '.join('`'+t+'`' for t in m['theorems'])} |\n"
open('/verif/DESIGN.md','w').write(head.replace('@@TABLE@@',rows).replace('@@ASSUM@@',open('/verif/tools/assumptions.md').read()))
