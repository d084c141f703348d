(** Syntax of the parsing expressions of the generated parser, and of the code
    blocks attached to them.

    logstash_config.go:12061-12171 defines the Go types; the constructors below
    are the ones the grammar [g] uses, with source positions dropped.  Not used
    by [g] and therefore absent: andExpr, notCodeExpr, recoveryExpr, throwExpr,
    ignoreCase matchers and Unicode classes.  [basicLatinChars] is absent because
    the generated matcher (logstash_config.go:12832-12897) does not read it. *)
From Coq Require Import List NArith String.
From Verif Require Import Bytes Ast.
Import ListNotations.

(** Action blocks: each is the single call of a [current] method; the string
    arguments are the labels whose values are passed (the functions are in
    logstash_config_helper.go, modelled in Actions.v). *)
Inductive action :=
| ARet (l : string) | ARetConfig (l : string) | AEmptyConfig
| AConfigSection (ps psComment : string)
| AConfig (ps pss psComment footerComment : string)
| AComment | AWhitespace | AStr
| AString (t : sat) | AEnclosedValue | ANumber | ARegexp
| AArray (attributes footerComment : string)
| AAttribute (name value : string)
| AAttributeComment (attribute comment : string) (spaceBefore : bool)
| AAttributes (attribute attributes comment : string)
| ABooleanOperator
| ABranch (ifBlock elseIfBlocks elseBlock ifComment : string)
| ABranchOrPluginComment (bop comment : string)
| ACompareExpression (lv co rv : string) | ACompareOperator
| ACondition (expr exprs : string) | AConditionExpression (cond : string)
| AElseBlock (bops comment : string) | AElseComment (eb ebComment : string)
| AElseIfBlock (cond bops comment : string) | AElseIfComment (eib eibComment : string)
| AExpression (bo expr : string)
| AHash (entries footerComment : string)
| AHashentries (attribute attributes : string)
| AHashentry (name value comment : string)
| AIfBlock (cond bops comment : string)
| AInExpression (lv rv : string)
| ANegativeExpression (cond : string) | ANegativeSelector (sel : string)
| ANotInExpression (lv rv : string)
| APlugin (name attributes comment footerComment : string)
| APluginSection (pt bops footerComment : string)
| APluginType (t : ptype)
| ARegexpExpression (lv ro rv : string) | ARegexpOperator
| ARvalue (rv : string)
| ASelector (ses : string) | ASelectorElement.

(** Predicate code blocks [&{...}]. *)
Inductive predicate := PInitParser | PPushError (msg : string) | PFatalError (msg : string).

(** State code blocks [#{...}]. *)
Inductive statecode := SInitState | SWarnComment.

(** logstash_config.go:12061-12171.  [ELit want runes]: [want] is the text used
    in error messages, [runes] the runes of the literal; [EClass val chars ranges
    inverted] likewise. *)
Inductive expr :=
| EAct (a : action) (e : expr)
| EAndCode (p : predicate)
| EStateCode (c : statecode)
| EAny
| EClass (val : string) (chars : list N) (ranges : list (N * N)) (inverted : bool)
| ELit (want : string) (runes : list N)
| EChoice (l : list expr)
| ESeq (l : list expr)
| ELab (label : string) (e : expr)
| ENot (e : expr)
| EPlus (e : expr)
| EStar (e : expr)
| EOpt (e : expr)
| ERef (name : string).

(** Rules of a grammar: name and expression (logstash_config.go:12067-12073). *)
Notation grammar := (list (string * expr)).
