"""Generates rocq/theories/StgTables.v from the enumerations and switch statements of the setting classes in /repo (text only)."""
import re
R='/repo/'
out=[]
w=out.append
w('''(** * Tables of the setting classes (generated from the source by tools/gen_settings.py)
    solver/include/solver/interface/SolverParams.hpp l.14-102 (enumerations), solver/src/solver/interface/SolverSetting.cpp l.18-75 (file), l.80-239 (get, set);
    momentumopt/include/momentumopt/setting/PlannerParams.hpp l.14-173, momentumopt/src/momentumopt/setting/PlannerSetting.cpp l.40-236 (file), l.238-673 (get).
    A case of a switch maps the parameter to the member it returns or assigns; None is the default branch. *)
From Coq Require Import List String.
Import ListNotations.
Local Open Scope string_scope.
''')
def enum(hdr):
    return {m.group(1):re.findall(r'^\s*(\w+_\w+),?\s*$',re.sub(r'//.*','',m.group(2)),re.M) for m in re.finditer(r'enum (\w+) \{(.*?)\}',hdr,re.S)}
def table(name,ty,cases,all_):
    d=dict(cases); assert len(d)==len(cases)
    w('Definition %s (p : %s) : option string :=\n  match p with'%(name,ty))
    for x in all_:
        if x in d: w('  | %s => Some "%s"'%(x,d[x]))
    if any(x not in d for x in all_): w('  | _ => None')
    w('  end.')
# solver
src=open(R+'solver/src/solver/interface/SolverSetting.cpp').read()
en=enum(open(R+'solver/include/solver/interface/SolverParams.hpp').read())
for e,xs in en.items():
    w('Inductive %s := %s.'%(e,' | '.join(xs)))
    w('Definition all_%s : list %s := [%s].'%(e,e,'; '.join(xs)))
for m in re.finditer(r'SolverSetting::(get|set)\((\w+) param[^)]*\)(?: const)?\s*\{(.*?)\n  \}\n',src,re.S):
    if m.group(1)=='get': cs=re.findall(r'case (\w+)\s*:\s*\{ return (\w+);\s*\}',m.group(3))
    else: cs=re.findall(r'case (\w+)\s*:\s*\{ (\w+) = value; break; \}',m.group(3))
    table('solver_%s_%s'%(m.group(1),m.group(2)),m.group(2),cs,en[m.group(2)])
ini=src[:src.index('catch (YAML::ParserException')]
rd=re.findall(r'(\w+_) = solver_vars\["(\w+)"\]\.as<(\w+)>\(\);',ini)
w('(** member, key and type, in the order of the file reader *)')
w('Inductive stype := Tbool | Tint | Tdouble | Tstring | Tvector | Tivector.')
w('Definition solver_file : list (string * string * stype) := [\n  %s].'%(';\n  '.join('("%s", "%s", T%s)'%(a,b,c) for a,b,c in rd)))
# planner
src=open(R+'momentumopt/src/momentumopt/setting/PlannerSetting.cpp').read()
hdr=open(R+'momentumopt/include/momentumopt/setting/PlannerSetting.hpp').read()
en=enum(open(R+'momentumopt/include/momentumopt/setting/PlannerParams.hpp').read())
for e,xs in en.items():
    w('Inductive %s := %s.'%(e,' | '.join(xs)))
    w('Definition all_%s : list %s := [%s].'%(e,e,'; '.join(xs)))
for m in re.finditer(r'\n  ([^\n]*?)PlannerSetting::get\((\w+) param\)( const)?\n(.*?)\n  \}\n',src,re.S):
    cs=re.findall(r'case (\w+)\s*:\s*\{ return (\w+);\s*\}',m.group(4))
    table('planner_%s_%s'%('read' if m.group(3) else 'write',m.group(2)),m.group(2),cs,en[m.group(2)])
# member types
def members(decl): return [x.strip() for x in decl.replace('\n',' ').split(',')]
ty={}
priv=hdr[hdr.index('private:'):]
for m in re.finditer(r'^\s*(int|bool|double|std::string|Eigen::\w+|Eigen::Matrix<double,Problem::n_endeffs_,1>)\s+([\w\s,]+);',priv,re.M):
    t=m.group(1); T={'int':'Tint','bool':'Tbool','double':'Tdouble','std::string':'Tstring','Eigen::VectorXi':'Tivector'}.get(t,'Tvector')
    for x in members(m.group(2)): ty[x]=T
# file reader: guards by line
body=src[src.index('// Kinematics parameters'):src.index('catch (std::runtime_error& e)\n    {\n      std::cout << "From')]
guard=[]; prog=[]
for l in body.split('\n'):
    s=l.strip()
    if s.startswith('if (load_kinematics_)'): guard.append('Kin'); continue
    if s.startswith('if (heuristic_ == Heuristic::TimeOptimization)'): guard.append('TimeOpt'); continue
    if s.startswith('if (use_second_order_inv_kin_)'): guard.append('Second'); continue
    if s.startswith('else{'): guard.append('First'); continue
    if s.startswith('for (') and s.endswith('{'):
        guard.append('For:'+s); continue
    if s=='}':
        if guard: guard.pop()
        continue
    g=[x for x in guard if not x.startswith('For')]
    gg='Always' if not g else g[-1]
    m=re.match(r'YAML::ReadParameter\(planner_vars, "(\w+)"\s*,\s*(\w+)\s*\);',s)
    if m: prog.append('Read %s %s "%s" "%s"'%(gg,ty[m.group(2)],m.group(1),m.group(2))); continue
    m=re.match(r'YAML::ReadParameter\(planner_vars\["(\w+)"\], "via"\+std::to_string\(via_id\), (\w+)\[via_id\]\);',s)
    if m:
        n=re.search(r'via_id<(\w+);',[x for x in guard if x.startswith('For')][-1]).group(1)
        prog.append('ReadVias %s "%s" "%s" "%s"'%(gg,n,m.group(1),m.group(2))); continue
    m=re.match(r'YAML::ReadParameter\(planner_vars, "(\w+)_"\+Problem::idToEndeffectorString\(eff_id\), (\w+)\[eff_id\]\);',s)
    if m: prog.append('ReadEff "%s_" "%s"'%(m.group(1),m.group(2))); continue
    if s.startswith('extended_active_dofs_ = '): prog.append('ExtendedDofs'); continue
    if s.startswith('if (YAML::ReadParameter<std::string>(planner_vars, "heuristic")'): prog.append('ReadHeuristic'); continue
    if s.startswith('is_friction_cone_linear_='): prog.append('ReadFriction'); continue
w('Inductive sguard := Always | Kin | TimeOpt | Second | First.')
w('''(** One step of the file reader: a parameter (guard, type, key, member), a list of via points (guard, member with the number, node, member), the four entries of an array
    (key prefix, member), and the three steps written out in StgModel. *)''')
w('Inductive sstep := Read (g : sguard) (t : stype) (key field : string) | ReadVias (g : sguard) (num node field : string) | ReadEff (prefix field : string) | ExtendedDofs | ReadHeuristic | ReadFriction.')
w('Definition planner_file : list sstep := [\n  %s].'%(';\n  '.join(prog)))
w('(** Types of the members, PlannerSetting.hpp l.53-105; Eigen vectors of fixed and dynamic size alike. *)')
w('Definition planner_members : list (string * stype) := [\n  %s].'%(';\n  '.join('("%s", %s)'%(k,v) for k,v in ty.items())))
open('/verif/rocq/theories/StgTables.v','w').write('\n'.join(out)+'\n')
