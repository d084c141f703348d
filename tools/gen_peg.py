#!/usr/bin/env python3
"""Translate the grammar file /repo/logstash_config.peg (pigeon's input language) into a
Gallina term (theories/PegFile.v): every rule of the file, with nothing inlined.  The
translation is purely syntactic; a code block is resolved to its single `return` statement,
as in gen_grammar.py.

usage: gen_peg.py /repo/logstash_config.peg > theories/PegFile.v
"""
import re, sys

src = open(sys.argv[1], encoding="utf-8").read()
TOK = re.compile(r'(?P<sp>\s+|//[^\n]*)|(?P<str>"(?:\\.|[^"\\\n])*"|`[^`]*`)|(?P<cls>\[(?:\\.|[^\]\\])*\])'
                 r'|(?P<id>[A-Za-z_]\w*)|(?P<op>[=/:&!#?*+.()])')
toks, i = [], 0
line = lambda p: src.count("\n", 0, p) + 1
while i < len(src):
    if src[i] == "{":                      # a code block: braces outside strings balance
        d, j = 0, i
        while True:
            c = src[j]
            if c == '"':
                j += 1
                while src[j] != '"':
                    j += 2 if src[j] == "\\" else 1
            elif c == "{": d += 1
            elif c == "}":
                d -= 1
                if d == 0: break
            j += 1
        toks.append(("code", src[i + 1:j].strip(), line(j)))
        i = j + 1
        continue
    m = TOK.match(src, i)
    assert m, src[i:i + 40]
    if m.lastgroup != "sp": toks.append((m.lastgroup, m.group(0), line(i)))
    i = m.end()

def q(s): return '"' + s.replace('"', '""') + '"'
def gostr(s): return s[1:-1] if s[0] == "`" else eval(s)
def goquote(s):
    return '"' + "".join({"\n": "\\n", "\r": "\\r", "\t": "\\t", '"': '\\"', "\\": "\\\\"}.get(c, c) for c in s) + '"'
def code(text, params):
    assert text.startswith("return ") and "\n" not in text, text
    e = text[len("return "):]
    if e in ("c.initState()", "c.warnComment()", "c.initParser()"):
        return {"c.initState()": "SInitState", "c.warnComment()": "SWarnComment", "c.initParser()": "PInitParser"}[e]
    m = re.fullmatch(r"ast\.(Input|Filter|Output), nil", e)
    if m: return "APluginType PT" + m.group(1)
    if e == "ast.NewConfig(nil, nil, nil), nil": return "AEmptyConfig"
    m = re.fullmatch(r"c\.(pushError|fatalError)\((\".*\")\)", e)
    if m: return ("PPushError " if m.group(1) == "pushError" else "PFatalError ") + q(gostr(m.group(2)))
    m = re.fullmatch(r"c\.string\(ast\.(\w+)\)", e)
    if m: return "AString " + m.group(1)
    m = re.fullmatch(r"c\.(\w+)\((.*)\)", e)
    assert m, e
    out = ["A" + m.group(1)[0].upper() + m.group(1)[1:]]
    for a in [a.strip() for a in m.group(2).split(",") if a.strip()]:
        if a in ("true", "false"): out.append(a)
        else:
            assert a in params, (e, params)
            out.append(q(a))
    return " ".join(out)

pos = 0
def peek(k=0): return toks[pos + k] if pos + k < len(toks) else ("end", "", 0)
def take():
    global pos
    pos += 1
    return toks[pos - 1]
def isop(c, k=0): return peek(k)[0] == "op" and peek(k)[1] == c
def starts_rule(k=0): return peek(k)[0] == "id" and isop("=", k + 1)

# nodes: (constructor, args); labels of a scope are collected as pigeon does
def labels(n):
    if n[0] == "ELab": return [n[1]]
    if n[0] == "ESeq": return [l for x in n[1] for l in labels(x)]
    return []
def choice():
    alts = [action()]
    while isop("/"):
        take(); alts.append(action())
    return alts[0] if len(alts) == 1 else ("EChoice", alts)
def action():
    items = []
    while not (peek()[0] in ("end", "code") or isop("/") or isop(")") or starts_rule()): items.append(labeled())
    e = items[0] if len(items) == 1 else ("ESeq", items)
    assert items
    if peek()[0] == "code": return ("EAct", code(take()[1], labels(e)), e)
    return e
def labeled():
    if peek()[0] == "id" and isop(":", 1):
        l = take()[1]; take()
        return ("ELab", l, prefixed())
    return prefixed()
def prefixed():
    if isop("&"):
        take(); assert peek()[0] == "code"
        return ("EAndCode", code(take()[1], []))
    if isop("#"):
        take()
        return ("EStateCode", code(take()[1], []))
    if isop("!"):
        take()
        return ("ENot", suffixed())
    return suffixed()
def suffixed():
    e = primary()
    for c, k in (("?", "EOpt"), ("*", "EStar"), ("+", "EPlus")):
        if isop(c):
            take()
            return (k, e)
    return e
def primary():
    t, s, _ = take()
    if t == "str": return ("ELit", s)
    if t == "cls": return ("EClass", s)
    if t == "id": return ("ERef", s)
    if s == ".": return ("EAny",)
    assert s == "(", s
    e = choice()
    assert isop(")"); take()
    return e

def klass(s):
    body, inv = s[1:-1], "false"
    if body[0] == "^": inv, body = "true", body[1:]
    cs = []
    k = 0
    while k < len(body):
        if body[k] == "\\":
            cs.append({"n": "\n", "r": "\r", "t": "\t"}.get(body[k + 1], body[k + 1])); k += 2
        else:
            cs.append(body[k]); k += 1
    chars, ranges, k = [], [], 0
    while k < len(cs):
        if k + 2 < len(cs) and cs[k + 1] == "-":
            ranges.append((ord(cs[k]), ord(cs[k + 2]))); k += 3
        else:
            chars.append(ord(cs[k])); k += 1
    return (f"EClass {q(s)} [{'; '.join(map(str, chars))}] "
            f"[{'; '.join('(%d, %d)' % r for r in ranges)}] {inv}")
def show(n, ind):
    pad = "\n" + "  " * ind
    k = n[0]
    if k == "ELit": return f"ELit {q(goquote(gostr(n[1])))} [{'; '.join(str(ord(c)) for c in gostr(n[1]))}]"
    if k == "EClass": return klass(n[1])
    if k == "ERef": return "ERef " + q(n[1])
    if k == "EAny": return "EAny"
    if k in ("EAndCode", "EStateCode"): return f"{k} ({n[1]})"
    if k == "EAct": return f"EAct ({n[1]}){pad}({show(n[2], ind + 1)})"
    if k == "ELab": return f"ELab {q(n[1])} ({show(n[2], ind + 1)})"
    if k in ("EChoice", "ESeq"): return f"{k}{pad}[" + (";" + pad).join(show(x, ind + 1) for x in n[1]) + "]"
    return f"{k} ({show(n[1], ind + 1)})"

assert peek()[0] == "code" and "package config" in peek()[1]; take()
rules = []
while peek()[0] != "end":
    assert starts_rule(), peek()
    name, ln = peek()[1], peek()[2]
    take(); take()
    rules.append((name, ln, choice(), toks[pos - 1][2]))
print("(* GENERATED by tools/gen_peg.py from /repo/logstash_config.peg: every rule of the grammar\n"
      "   file, nothing inlined.  Do not edit: regenerate. *)")
print("From Coq Require Import List NArith String.\nFrom Verif Require Import Ast Peg.\n"
      "Import ListNotations.\nLocal Open Scope string_scope.\nLocal Open Scope N_scope.\n")
for name, ln, e, to in rules:
    print(f"(** logstash_config.peg:{ln}-{to} *)\nDefinition peg_{name} : expr :=\n  {show(e, 2)}.\n")
print("Definition peg_grammar : grammar :=\n  [" + ";\n   ".join(f"({q(n)}, peg_{n})" for n, *_ in rules) + "].")
