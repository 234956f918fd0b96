"""List what Print Assumptions reports for every property theorem and write it into DESIGN.md (needs a finished build)."""
import glob, os, re, subprocess, tempfile
root = os.path.dirname(os.path.dirname(os.path.abspath(__file__)))
th = os.path.join(root, 'rocq', 'theories')
names, src = [], ''
for f in sorted(glob.glob(os.path.join(th, 'Props', '*.v'))):
    src += 'From Verif.Props Require %s.\n' % os.path.basename(f)[:-2]
    for m in re.finditer(r'^Theorem\s+(C\d+_\w+)', open(f).read(), re.M):
        names.append((m.group(1), os.path.basename(f)[:-2]))
for n, f in names:
    src += 'Print Assumptions %s.%s.\nCheck tt.\n' % (f, n)
with tempfile.TemporaryDirectory() as d:
    p = os.path.join(d, 'a.v')
    open(p, 'w').write(src)
    out = subprocess.run(['coqc', '-Q', th, 'Verif', p], stdout=subprocess.PIPE, check=True, text=True).stdout
parts = re.split(r'^tt\s*\n\s*: unit\n', out, flags=re.M)
short = {'ClassicalDedekindReals.sig_forall_dec': 'F', 'ClassicalDedekindReals.sig_not_dec': 'N',
         'FunctionalExtensionality.functional_extensionality_dep': 'X', 'Classical_Prop.classic': 'C'}
groups = {}
for (n, f), o in zip(names, parts):
    ax = re.findall(r'^([A-Za-z_][\w.]*)(?:\s*$|\s*:)', o, re.M)
    ax = [a for a in ax if a != 'Axioms']
    if 'Closed under the global context' in o:
        ax = []
    key = ' '.join(sorted(short.get(a, a) for a in ax)) or 'none'
    groups.setdefault(key, []).append(n)
lines = ['F = `ClassicalDedekindReals.sig_forall_dec`, N = `ClassicalDedekindReals.sig_not_dec`,',
         'X = `FunctionalExtensionality.functional_extensionality_dep`, C = `Classical_Prop.classic`.', '']
key = lambda n: (int(re.match(r'C(\d+)', n).group(1)), n)
for k in sorted(groups):
    lines.append('* **%s** (%d theorems): %s' % (k, len(groups[k]), ', '.join('`%s`' % n for n in sorted(groups[k], key=key))))
p = os.path.join(root, 'DESIGN.md')
s = open(p).read()
a, b = '<!-- assumptions -->', '<!-- end assumptions -->'
s = s[:s.index(a) + len(a)] + '\n' + '\n'.join(lines) + '\n' + s[s.index(b):]
open(p, 'w').write(s)
print({k: len(v) for k, v in groups.items()})
