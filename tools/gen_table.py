"""Generates rocq/theories/Spec/RuleTable.v from the table of docs/rules.qmd (the documentation, not the code)."""
import re
L=open('/repo/docs/rules.qmd').read().split('\n')
rows=[];first=last=0
for k,l in enumerate(L,1):
    m=re.match(r'\s*c\("(\w+)", "([^"]*)", "([^"]*)", "([^"]*)"\),?$',l)
    if m:
        rows.append(m.groups()); first=first or k; last=k
cat={'comments':'Comm','correctness':'Corr','suspicious':'Susp','performance':'Perf','readability':'Read','testthat':'Testthat'}
fix={'✅':'FixSafe','❗':'FixUnsafe','❌':'FixNone'}
o=[]
o.append(f'''(** The documented table of rules.  Generated by tools/gen_table.py from docs/rules.qmd:{first}-{last}, the page
    users read; not from the code. *)
From Verif Require Import Model.Text Model.Rules Spec.ConfigSpec.

(** A row: name, groups, column "Has fix", disabled by default, required version of R. *)
Record row := mk_row {{ w_name : text; w_groups : list category; w_fix : fix_status; w_off : bool; w_version : option r_version }}.
Definition documented_rules : list row :=''')
out=[]
for n,g,f,c in rows:
    v=re.match(r'R >= (\d+)\.(\d+)$',c)
    assert c in ('','Disabled by default') or v,c
    out.append('mk_row (lit "%s") [%s] %s %s %s'%(n,'; '.join(cat[x] for x in g.split(', ')),fix[f],'true' if c.startswith('Dis') else 'false',f'(Some ({v[1]}, {v[2]}, 0))' if v else 'None'))
o.append('  [ '+';\n    '.join(out)+' ].\n')
o.append('''(** The version required by the table, if any, is at most the version the project is known to require. *)
Definition enough (required known : option r_version) : Prop :=
  match required with None => True | Some m => exists p, known = Some p /\\ version_le m p end.
''')
open('/verif/rocq/theories/Spec/RuleTable.v','w').write('\n'.join(o))
print(len(rows))
