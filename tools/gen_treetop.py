#!/usr/bin/env python3
"""Translate /repo/grammar.treetop to rocq/theories/TreetopGen.v, rule by rule.

Labels (x:) and node classes (<...>) do not take part in matching and are dropped."""
import re, sys
src = open("/repo/grammar.treetop").read()
TOK = re.compile(r"""\s+|\#[^\n]*|(?P<node><[A-Za-z:]+>)|(?P<lit>'(?:\\.|[^'\\])*'|"(?:\\.|[^"\\])*")|(?P<cls>\[(?:\\.|[^\]\\])*\])
 |(?P<lab>[A-Za-z_]\w*:(?!:))|(?P<id>[A-Za-z_]\w*)|(?P<op>[()/*+?!.])""", re.X)
def lex(t):
    i, out = 0, []
    while i < len(t):
        m = TOK.match(t, i)
        if not m: raise SystemExit("cannot read: %r" % t[i:i+40])
        if m.lastgroup: out.append((m.lastgroup, m.group(m.lastgroup)))
        i = m.end()
    return out
def unquote(s):
    q, s, out, i = s[0], s[1:-1], [], 0
    while i < len(s):
        if s[i] == "\\":
            c = s[i+1]
            if q == "'":            # Ruby: only \\ and \' are escapes
                if c in "\\'": out.append(ord(c))
                else: out += [92, ord(c)]
            else:
                out.append({"n": 10, "r": 13, "t": 9}.get(c, ord(c)))
            i += 2
        else: out.append(ord(s[i])); i += 1
    return out
def cls(s):
    s = s[1:-1]; inv = s.startswith("^"); s = s[1:] if inv else s
    chars, i = [], 0
    while i < len(s):
        if s[i] == "\\": chars.append(({"n": 10, "r": 13, "t": 9}.get(s[i+1], ord(s[i+1])), True)); i += 2
        else: chars.append((ord(s[i]), False)); i += 1
    cs, rs, i = [], [], 0
    while i < len(chars):
        if i + 2 < len(chars) and chars[i+1] == (45, False): rs.append((chars[i][0], chars[i+2][0])); i += 3
        else: cs.append(chars[i][0]); i += 1
    return "TClass %s [%s]%%N [%s]%%N" % ("true" if inv else "false", "; ".join(map(str, cs)), "; ".join("(%d, %d)" % r for r in rs))
class P:
    def __init__(self, t): self.t, self.i = t, 0
    def peek(self): return self.t[self.i] if self.i < len(self.t) else (None, None)
    def alt(self):
        l = [self.seq()]
        while self.peek() == ("op", "/"): self.i += 1; l.append(self.seq())
        return l[0] if len(l) == 1 else "TAlt [%s]" % "; ".join(l)
    def seq(self):
        l = []
        while True:
            k, v = self.peek()
            if k is None or (k == "op" and v in "/)"): break
            if k in ("node", "lab"): self.i += 1; continue
            l.append(self.post())
        return l[0] if len(l) == 1 else "TSeq [%s]" % "; ".join(l)
    def post(self):
        k, v = self.peek(); self.i += 1
        if (k, v) == ("op", "!"): return "TNot (%s)" % self.post()
        if k == "lit": e = "TLit [%s]%%N" % "; ".join(map(str, unquote(v)))
        elif k == "cls": e = cls(v)
        elif k == "id": e = 'TRef "%s"' % v
        elif (k, v) == ("op", "."): e = "TAny"
        elif (k, v) == ("op", "("):
            e = self.alt(); assert self.peek() == ("op", ")"), self.peek(); self.i += 1
        else: raise SystemExit("unexpected %r" % v)
        while self.peek()[0] == "op" and self.peek()[1] in "*+?":
            e = "%s (%s)" % ({"*": "TStar", "+": "TPlus", "?": "TOpt"}[self.peek()[1]], e); self.i += 1
        return e
body = src[src.index("grammar LogStashConfig") + len("grammar LogStashConfig"):]
rules = re.findall(r"^  rule (\w+) *\n(.*?)\n  end$", body, re.S | re.M)
rest = re.sub(r"^  rule (\w+) *\n(.*?)\n  end$", "", body, flags=re.S | re.M)
assert re.sub(r"#[^\n]*", "", rest).split() == ["end"], rest
out = ["(** Generated by tools/gen_treetop.py from /repo/grammar.treetop; do not edit. *)",
       "From Coq Require Import List NArith String.", "From Verif Require Import Bytes Treetop.", "Import ListNotations.", "Open Scope string_scope.", "",
       "Definition treetop_grammar : list (string * tx) := ["]
items = []
for n, t in rules:
    toks = lex(t); p = P(toks); e = p.alt(); assert p.i == len(toks), (n, toks[p.i:])
    items.append('  (* grammar.treetop:%d *)\n  ("%s", %s)' % (src[:re.search(r"^  rule %s *$" % n, src, re.M).start()].count("\n") + 1, n, e))
out.append(";\n".join(items)); out.append("].")
open("/verif/rocq/theories/TreetopGen.v", "w").write("\n".join(out).replace('TRef "', 'TRef "') + "\n")
print(len(rules), "rules")
