(** Properties C55 and C56: nothing of an accepted file is lost.  Specification:
    Spelled.v ([spelled], [pc_config], [gap_block], [commented]). *)
From Coq Require Import List NArith ZArith Bool String Arith Lia.
From Verif Require Import Bytes Utf8 F64 Ast Peg Actions Engine Parser GrammarGen AstPrint PosFacts Run LexFacts Tree Spelled GapComments SpellParse.
Import ListNotations.

(** ** C55: the tree and the text *)
(** The text of an accepted file is, byte by byte, the tokens of the sections of
    the returned configuration in source order, with gaps (white space and
    comments) only where [pc_config] has one; where the tree has a comment block,
    the block is the [gap_block] of the gap: its comments in order, and the blank
    lines around them.  The one exception is a file without any section. *)
Theorem C55_text_of_tree : forall opts ff data c ff',
  k_entry (config_of opts) = "init"%string ->
  parse opts ff data = (Returned (VConfig c) [], ff') ->
  (gap_run data [] /\ c = Config [] [] [] [] []) \/
  exists ss hs, ss <> [] /\ Forall (fun s => ps_type s <> PTUndef) ss /\
    cf_input c = of_type PTInput ss /\ cf_filter c = of_type PTFilter ss /\ cf_output c = of_type PTOutput ss /\
    spelled (k_ignore (config_of opts)) data 0 (pc_config ss (cf_foot c)) data hs.
Proof.
  intros opts ff data c ff' He H. destruct (parse_spelled _ _ _ _ _ He H) as [A|(ss & hs & A1 & A2 & A3 & A4 & A5 & A6 & _)]; [now left|right].
  exists ss, hs. auto 8.
Qed.
Print Assumptions C55_text_of_tree.

(** The texts of a block are the comments of the gap, whatever its place. *)
Theorem C55_comments : forall k t, map c_text (gap_block k t) = gap_comments t.
Proof. exact gap_block_text. Qed.
Print Assumptions C55_comments.

(** ** C56: no comment is lost silently *)
(** With ExceptionalCommentsWarning the warnings are exactly the gaps without a
    place in the tree that have a comment, in order; so every comment of an
    accepted file with a section is in the tree or reported. *)
Theorem C56_reported : forall opts ff data c ff',
  k_entry (config_of opts) = "init"%string -> k_warn (config_of opts) = true ->
  parse opts ff data = (Returned (VConfig c) [], ff') ->
  (gap_run data [] /\ c = Config [] [] [] [] []) \/
  exists ss hs, ss <> [] /\
    cf_input c = of_type PTInput ss /\ cf_filter c = of_type PTFilter ss /\ cf_output c = of_type PTOutput ss /\
    spelled (k_ignore (config_of opts)) data 0 (pc_config ss (cf_foot c)) data hs /\
    cf_warnings c = map warning_text (commented hs).
Proof.
  intros opts ff data c ff' He Hw H. destruct (parse_spelled _ _ _ _ _ He H) as [A|(ss & hs & A1 & A2 & A3 & A4 & A5 & A6 & A7)]; [now left|right].
  exists ss, hs. rewrite Hw in A7. auto 8.
Qed.
Print Assumptions C56_reported.
(** In particular, without a warning no gap without a place in the tree has a
    comment. *)
Theorem C56_no_warning : forall opts ff data c ff',
  k_entry (config_of opts) = "init"%string -> k_warn (config_of opts) = true ->
  parse opts ff data = (Returned (VConfig c) [], ff') -> cf_warnings c = [] ->
  (gap_run data [] /\ c = Config [] [] [] [] []) \/
  exists ss hs, ss <> [] /\
    cf_input c = of_type PTInput ss /\ cf_filter c = of_type PTFilter ss /\ cf_output c = of_type PTOutput ss /\
    spelled (k_ignore (config_of opts)) data 0 (pc_config ss (cf_foot c)) data hs /\
    forall p t, In (p, t) hs -> ~ In HASH t.
Proof.
  intros opts ff data c ff' He Hw H Hn. destruct (C56_reported _ _ _ _ _ He Hw H) as [A|(ss & hs & A1 & A2 & A3 & A4 & A5 & A6)]; [now left|right].
  exists ss, hs. repeat (split; [assumption|]). rewrite Hn in A6. symmetry in A6. apply map_eq_nil in A6. unfold commented in A6. apply map_eq_nil in A6.
  intros p t I J. assert (K : In (p, t) (filter has_comment hs)); [|rewrite A6 in K; destruct K].
  apply filter_In. split; [exact I|]. unfold has_comment. cbn. apply existsb_exists. exists HASH. split; [exact J|reflexivity].
Qed.
Print Assumptions C56_no_warning.
(** The exception is real: the comments of a file without a section are neither
    in the tree nor reported. *)
Theorem C56_exception : exists opts data ff c, k_warn (config_of opts) = true /\ In HASH data /\
  parse opts [] data = (Returned (VConfig c) [], ff) /\ c = Config [] [] [] [] [].
Proof.
  exists [OptExceptionalCommentsWarning true], (b "# to do" ++ [NL]). eexists _, _.
  split; [reflexivity|]. split; [now left|]. split; [vm_compute; reflexivity|reflexivity].
Qed.
Print Assumptions C56_exception.

(** A file with comments of both kinds *)
Definition spell_text : bytes :=
  b "# top" ++ [NL] ++ b "input # one" ++ [NL] ++ b "{ stdin { # in" ++ [NL] ++ b " codec # two" ++ [NL] ++ b "=> [ 1, # el" ++ [NL] ++
  b "'x' ] # foot" ++ [NL] ++ b " } }" ++ [NL] ++ b "# last".
Definition spell_opts : list popt := [OptExceptionalCommentsWarning true].
Definition spell_config : config :=
  Eval vm_compute in match parse spell_opts [] spell_text with (Returned (VConfig c) [], _) => c | _ => Config [] [] [] [] [] end.
Example C55_case : fst (parse spell_opts [] spell_text) = Returned (VConfig spell_config) [] /\ k_warn (config_of spell_opts) = true /\
  k_entry (config_of spell_opts) = "init"%string /\ cf_warnings spell_config = map warning_text [Pos 2 6 11; Pos 4 7 39] /\
  map c_text (cf_foot spell_config) = [b "last"] /\
  exists s p v f, cf_input spell_config = [s] /\ map c_text (ps_com s) = [b "top"] /\
    ps_bops s = [BPlugin (Plugin p (b "stdin") [v] [] f)] /\ map c_text f = [b "foot"] /\
    exists q w y c, v = AtArr q (b "codec") [w; y] c [] /\ map c_text c = [b "in"] /\ map c_text (attr_com w) = [] /\ map c_text (attr_com y) = [b "el"].
Proof.
  split; [vm_compute; reflexivity|]. split; [reflexivity|]. split; [reflexivity|]. split; [vm_compute; reflexivity|]. split; [reflexivity|].
  eexists _, _, _, _. split; [reflexivity|]. split; [reflexivity|]. split; [reflexivity|]. split; [reflexivity|].
  eexists _, _, _, _. split; [reflexivity|]. split; [reflexivity|]. split; reflexivity.
Qed.

(** Blank lines: before a comment on its own, between two comments, after the last
    comment of the file's head. *)
Definition blank_text : bytes :=
  b "# one" ++ [NL] ++ b "# two" ++ [NL; NL] ++ b "# three" ++ [NL; NL] ++ b "input { stdin {" ++ [NL; NL] ++ b "# four" ++ [NL] ++ b "a => 1" ++ [NL] ++ b "# five" ++ [NL] ++ b "b => 2 } }".
Definition blank_config : config :=
  Eval vm_compute in match parse [] [] blank_text with (Returned (VConfig c) [], _) => c | _ => Config [] [] [] [] [] end.
Example C55_blank_case : fst (parse [] [] blank_text) = Returned (VConfig blank_config) [] /\
  exists s p v w, cf_input blank_config = [s] /\
    ps_com s = [Comment (b "one") false false; Comment (b "two") false false; Comment (b "three") true true] /\
    ps_bops s = [BPlugin (Plugin p (b "stdin") [v; w] [] [])] /\
    attr_com v = [Comment (b "four") false false] /\ attr_com w = [Comment (b "five") true false].
Proof.
  split; [vm_compute; reflexivity|]. eexists _, _, _, _. split; [reflexivity|]. split; [reflexivity|]. split; [reflexivity|]. split; reflexivity.
Qed.
