#!/usr/bin/env python3
"""Translate the generated pigeon grammar `var g = &grammar{...}` and the
`on*`/`callon*` action bindings of /repo/logstash_config.go into a Gallina term
(theories/GrammarGen.v).  The translation is purely syntactic: every Go
composite literal becomes the constructor of Peg.expr of the same name; source
positions are dropped; the action, predicate and state-code references are
resolved to the single `return ...` statement of their on* function.

usage: gen_grammar.py /repo/logstash_config.go > theories/GrammarGen.v
       gen_grammar.py /repo/logstash_config.go --choices > theories/ChoiceGen.v
"""
import re, sys

src = open(sys.argv[1], encoding="utf-8").read()
lines = src.split("\n")
start = next(i for i, l in enumerate(lines) if l.startswith("var g = &grammar{"))
end = next(i for i in range(start, len(lines)) if lines[i] == "}")
text = "\n".join(lines[start:end + 1])[len("var g = "):]

# ---- bindings -----------------------------------------------------------
on = {}
for m in re.finditer(r"func \(c \*current\) (on\w+)\((.*?)\) \(?.*?\)? ?\{\n(.*?)\n\n\}", src, re.S):
    name, params, body = m.groups()
    params = [p.strip() for p in params.replace("interface{}", "").split(",") if p.strip()]
    on[name] = (params, body.strip())
call = {}
for m in re.finditer(r"func \(p \*parser\) (callon\w+)\(\) .*?\{\n\tstack := p.vstack\[len\(p.vstack\)-1\]\n\t_ = stack\n\treturn p.cur.(on\w+)\((.*?)\)\n\}", src):
    cname, oname, args = m.groups()
    args = re.findall(r'stack\["(\w+)"\]', args)
    assert args == on[oname][0], (cname, args, on[oname])
    call[cname] = oname

def q(s):
    return '"' + s.replace('"', '""') + '"'

def gostr(s):
    assert s[0] == '"' and s[-1] == '"'
    return eval(s)

RET = {"c.initState()": "SInitState", "c.warnComment()": "SWarnComment",
       "c.initParser()": "PInitParser"}

def resolve(cname):
    params, body = on[call[cname]]
    assert body.startswith("return "), body
    e = body[len("return "):]
    if e in RET:
        return RET[e]
    m = re.fullmatch(r"ast\.(Input|Filter|Output), nil", e)
    if m:
        return "APluginType PT" + m.group(1)
    if e == "ast.NewConfig(nil, nil, nil), nil":
        return "AEmptyConfig"
    m = re.fullmatch(r"c\.(pushError|fatalError)\((\".*\")\)", e)
    if m:
        return ("PPushError " if m.group(1) == "pushError" else "PFatalError ") + q(gostr(m.group(2)))
    m = re.fullmatch(r"c\.string\(ast\.(\w+)\)", e)
    if m:
        return "AString " + m.group(1)
    m = re.fullmatch(r"c\.(\w+)\((.*)\)", e)
    assert m, e
    fn, args = m.groups()
    args = [a.strip() for a in args.split(",") if a.strip()]
    out = []
    for a in args:
        if a in ("true", "false"):
            out.append(a)
        else:
            assert a in params, (e, params)
            out.append(q(a))
    return " ".join(["A" + fn[0].upper() + fn[1:]] + out)

# ---- tokenizer ----------------------------------------------------------
TOK = re.compile(r'\s+|("(?:\\.|[^"\\])*")|(\'(?:\\.|[^\'\\])*\')|(\(\*parser\)\.\w+)|(\[\]\*?\w+(?:\{\})?)|(&?[A-Za-z_]\w*)|(-?\d+)|([{}:,])')
toks = []
i = 0
while i < len(text):
    m = TOK.match(text, i)
    assert m, text[i:i + 60]
    i = m.end()
    t = m.group(0)
    if not t.isspace():
        toks.append(t)
pos = 0

def peek():
    return toks[pos]

def nxt():
    global pos
    pos += 1
    return toks[pos - 1]

def parse_value():
    t = nxt()
    if t[0] in "\"'" or re.fullmatch(r"-?\d+", t) or t in ("true", "false") or t.startswith("(*parser)"):
        return t
    if t == "{":
        return parse_body(None)
    # composite literal
    assert peek() == "{", (t, toks[pos:pos + 5])
    nxt()
    return parse_body(t)

def parse_body(ty):
    fields, elems = {}, []
    while peek() != "}":
        if re.fullmatch(r"[A-Za-z_]\w*", peek()) and toks[pos + 1] == ":":
            k = nxt(); nxt()
            fields[k] = parse_value()
        else:
            elems.append(parse_value())
        if peek() == ",":
            nxt()
    nxt()
    return (ty, fields, elems)

tree = parse_value()
assert pos == len(toks)

def rune(s):
    v = eval(s)
    assert len(v) == 1
    return str(ord(v))

def lst(xs, ind):
    if not xs:
        return "[]"
    pad = "\n" + "  " * ind
    return "[" + (";" + pad).join(xs) + "]"

def ex(n, ind):
    ty, f, el = n
    k = ty.lstrip("&")
    pad = "\n" + "  " * (ind + 1)
    if k == "actionExpr":
        return f"EAct ({resolve(f['run'].split('.')[1])}){pad}({ex(f['expr'], ind + 1)})"
    if k == "andCodeExpr":
        return f"EAndCode ({resolve(f['run'].split('.')[1])})"
    if k == "stateCodeExpr":
        return f"EStateCode ({resolve(f['run'].split('.')[1])})"
    if k == "anyMatcher":
        return "EAny"
    if k == "charClassMatcher":
        assert f["ignoreCase"] == "false" and "classes" not in f
        chars = [rune(x) for x in f["chars"][2]] if "chars" in f else []
        rs = [rune(x) for x in f["ranges"][2]] if "ranges" in f else []
        assert len(rs) % 2 == 0
        rs = [f"({rs[j]}, {rs[j+1]})" for j in range(0, len(rs), 2)]
        return f"EClass {q(gostr(f['val']))} [{'; '.join(chars)}] [{'; '.join(rs)}] {f['inverted']}"
    if k == "litMatcher":
        assert f["ignoreCase"] == "false"
        return f"ELit {q(gostr(f['want']))} [{'; '.join(str(ord(c)) for c in gostr(f['val']))}]"
    if k == "choiceExpr":
        return f"EChoice{pad}{lst([ex(x, ind + 1) for x in f['alternatives'][2]], ind + 1)}"
    if k == "seqExpr":
        return f"ESeq{pad}{lst([ex(x, ind + 1) for x in f['exprs'][2]], ind + 1)}"
    if k == "labeledExpr":
        return f"ELab {q(gostr(f['label']))}{pad}({ex(f['expr'], ind + 1)})"
    if k == "notExpr":
        return f"ENot ({ex(f['expr'], ind + 1)})"
    if k == "oneOrMoreExpr":
        return f"EPlus{pad}({ex(f['expr'], ind + 1)})"
    if k == "zeroOrMoreExpr":
        return f"EStar{pad}({ex(f['expr'], ind + 1)})"
    if k == "zeroOrOneExpr":
        return f"EOpt{pad}({ex(f['expr'], ind + 1)})"
    if k == "ruleRefExpr":
        return f"ERef {q(gostr(f['name']))}"
    raise AssertionError(k)

def choices(n, path):
    """the choices below the node n, whose path (innermost child number first) is path"""
    ty, f, el = n
    k = ty.lstrip("&")
    out = []
    if k == "choiceExpr":
        p = f["pos"][1]
        out.append((path, int(p["line"]), int(p["col"])))
    if k in ("choiceExpr", "seqExpr"):
        for j, x in enumerate(f["alternatives" if k == "choiceExpr" else "exprs"][2]):
            out += choices(x, [j] + path)
    elif "expr" in f:
        out += choices(f["expr"], [0] + path)
    return out

if "--choices" in sys.argv:
    print("(* GENERATED by tools/gen_grammar.py --choices from /repo/logstash_config.go lines "
          f"{start+1}-{end+1}\n   (`var g = &grammar{{...}}`): the field pos of every choiceExpr, by rule and path of the\n"
          "   node (child numbers, innermost first).  Do not edit: regenerate. *)")
    print("From Coq Require Import List String.\nImport ListNotations.\nLocal Open Scope string_scope.\n")
    rows = []
    for r in tree[1]["rules"][2]:
        name = gostr(r[1]["name"])
        for path, l, c in choices(r[1]["expr"], []):
            rows.append(f"(({q(name)}, [{'; '.join(map(str, path))}]), ({l}, {c}))")
    print("Definition choice_table : list ((string * list nat) * (nat * nat)) :=\n  [" + ";\n   ".join(rows) + "].")
    sys.exit()

print("(* GENERATED by tools/gen_grammar.py from /repo/logstash_config.go lines "
      f"{start+1}-{end+1}\n   (`var g = &grammar{{...}}`) and the on*/callon* bindings below it.\n"
      "   Do not edit: regenerate.  Source positions are dropped; everything else is\n"
      "   one Coq constructor per Go composite literal. *)")
print("From Coq Require Import List NArith String.")
print("From Verif Require Import Bytes Ast Peg.")
print("Import ListNotations.\nLocal Open Scope string_scope.\nLocal Open Scope N_scope.\n")
names = []
for r in tree[1]["rules"][2]:
    f = r[1]
    name = gostr(f["name"])
    assert "displayName" not in f
    names.append(name)
    print(f"Definition gen_{name} : expr :=\n  {ex(f['expr'], 1)}.\n")
print("Definition gen_grammar : list (string * expr) :=\n  [" +
      ";\n   ".join(f'({q(n)}, gen_{n})' for n in names) + "].")
