"""Generates rocq/theories/Model/Rules.v from crates/jarl-core/src/rule_set.rs (declare_rules! table)."""
import re,sys
src=open('/repo/crates/jarl-core/src/rule_set.rs').read().split('\n')
start=next(i for i,l in enumerate(src) if l.startswith('declare_rules! {'))
rules=[];dep={};i=start+1;pend=None
while src[i]!='}':
    l=src[i].strip()
    if l.startswith('#[deprecated'): pend=re.search(r'version = "([^"]*)", replacement = "([^"]*)"',l).groups()
    m=re.match(r'(\w+) => \{$',l)
    if m:
        v=m.group(1); j=i; f={}
        while src[j].strip()!='},':
            mm=re.match(r'(\w+): (.*),$',src[j].strip())
            if mm: f[mm.group(1)]=mm.group(2)
            j+=1
        rules.append((v,f,i+1,j+1)); 
        if pend: dep[v]=pend
        pend=None; i=j
    i+=1
end=i+1
o=[]
w=o.append
w(f'''(** The rule table.  Generated by tools/gen_rules.py from the [declare_rules!] table,
    crates/jarl-core/src/rule_set.rs:{start+1}-{end}; the accessors follow the macro,
    rule_set.rs:88-213. *)
From Verif Require Import Model.Text.

(** rule_set.rs:6-19 *)
Inductive category := Comm | Corr | Susp | Perf | Read | Testthat.
(** rule_set.rs:72-78 *)
Inductive fix_status := FixNone | FixSafe | FixUnsafe.
Definition r_version : Type := nat * nat * nat.
''')
w('(** [Rule], rule_set.rs:%d-%d (variants prefixed by [R_]) *)'%(start+1,end))
w('Inductive rule :=')
for v,f,a,b in rules: w(f'| R_{v}')
o[-1]+='.\n'
w('(** [Rule::all], rule_set.rs:197-212: declaration order *)')
w('Definition all_rules : list rule :=\n  [ '+';\n    '.join('R_'+v for v,_,_,_ in rules)+' ].\n')
def fn(name,doc,ty,val,default=None):
    w(f'(** {doc} *)'); w(f'Definition {name} (r : rule) : {ty} :=\n  match r with')
    for v,f,a,b in rules:
        x=val(v,f)
        if x==default: continue
        w(f'  | R_{v} => {x}')
    if default is not None and any(val(v,f)==default for v,f,_,_ in rules): w(f'  | _ => {default}')
    w('  end.\n')
fn('rule_name','[Rule::name], rule_set.rs:117-121','text',lambda v,f:'lit '+f['name'])
fn('rule_categories','[Rule::categories], rule_set.rs:124-128','list category',lambda v,f:'['+f['categories'].strip('[]').replace(',',';')+']')
fn('rule_default','[Rule::default_status]/[is_enabled_by_default], rule_set.rs:131-135, 177-179','bool',lambda v,f:{'Enabled':'true','Disabled':'false'}[f['default']],'true')
fn('rule_fix','[Rule::fix_status], rule_set.rs:138-142','fix_status',lambda v,f:'Fix'+f['fix'],'FixNone')
def mv(v,f):
    x=f['min_r_version']
    if x=='None': return 'None'
    return 'Some '+re.match(r'Some\((\(.*\))\)',x).group(1)
fn('rule_min_version','[Rule::minimum_r_version], rule_set.rs:145-149','option r_version',mv,'None')
fn('rule_deprecation','[Rule::deprecation], rule_set.rs:151-156: version and replacement','option (text * text)',lambda v,f:'Some (lit "%s", lit "%s")'%dep[v] if v in dep else 'None','None')
w('''(** [#[derive(PartialEq)]] *)
Definition category_eqb (a b : category) : bool :=
  match a, b with
  | Comm, Comm | Corr, Corr | Susp, Susp | Perf, Perf | Read, Read | Testthat, Testthat => true
  | _, _ => false
  end.

(** [has_category], rule_set.rs:187-189 *)
Definition has_category (r : rule) (c : category) : bool := existsb (category_eqb c) (rule_categories r).

(** [has_no_fix], [has_safe_fix], [has_unsafe_fix], rule_set.rs:162-174 *)
Definition has_no_fix r := match rule_fix r with FixNone => true | _ => false end.
Definition has_safe_fix r := match rule_fix r with FixSafe => true | _ => false end.
Definition has_unsafe_fix r := match rule_fix r with FixUnsafe => true | _ => false end.

(** [Rule::from_name], rule_set.rs:192-197: a Rust [match] tries the names in order. *)
Definition from_name (s : text) : option rule := find (fun r => teqb s (rule_name r)) all_rules.

(** [Category::ALL], [Category::as_str], [FromStr], rule_set.rs:22-63 *)
Definition all_categories : list category := [Comm; Corr; Susp; Perf; Read; Testthat].
Definition category_name (c : category) : text :=
  match c with
  | Comm => lit "COMM" | Corr => lit "CORR" | Susp => lit "SUSP"
  | Perf => lit "PERF" | Read => lit "READ" | Testthat => lit "TESTTHAT"
  end.
Definition category_of_name (s : text) : option category :=
  if teqb s (lit "COMM") then Some Comm else if teqb s (lit "CORR") then Some Corr
  else if teqb s (lit "SUSP") then Some Susp else if teqb s (lit "PERF") then Some Perf
  else if teqb s (lit "READ") then Some Read else if teqb s (lit "TESTTHAT") then Some Testthat
  else None.
''')
open('/verif/rocq/theories/Model/Rules.v','w').write('\n'.join(o))
print(len(rules),dep)
