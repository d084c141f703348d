(** Property C57: the layout of a file does not matter.  Specification: Written.v
    ([written]: the texts of a list of sections; [shape_config]: a tree without
    positions, comments and warnings). *)
From Coq Require Import List NArith ZArith Bool String Arith Lia.
From Verif Require Import Bytes Utf8 EscapeFacts F64 Ast Peg Actions Engine Parser GrammarGen AstPrint Utf8Facts InputFacts LexFacts Tree Layout Spelled Written FreeConf PropsRound.
Import ListNotations.

(** ** C57: any layout *)
(** Take well-formed sections in any order, and write their tokens with any white
    space and comments in the gaps: the text is accepted, and the result has
    exactly these sections. *)
Theorem C57_reads_back : forall opts ff ss foot data,
  Forall (fun s => ps_type s <> PTUndef /\ All wf_bop (ps_bops s) /\ clear_section s) ss ->
  written (pc_config ss foot) data [] ->
  k_entry (config_of opts) = "init"%string -> k_max (config_of opts) = 0%N ->
  utf8_text data \/ k_invalid (config_of opts) = true ->
  exists c ff', parse opts ff data = (Returned (VConfig c) [], ff') /\
    shape_config c = Config (map shape_section (of_type PTInput ss)) (map shape_section (of_type PTFilter ss)) (map shape_section (of_type PTOutput ss)) [] [].
Proof. intros opts ff ss foot data H. exact (parse_written opts ff ss foot data H). Qed.
Print Assumptions C57_reads_back.

(** So two texts with the same tokens are both accepted, with any options, and
    give the same tree up to positions, comments and warnings. *)
Theorem C57_layout_free : forall opts1 opts2 ff1 ff2 ss foot1 foot2 data1 data2,
  Forall (fun s => ps_type s <> PTUndef /\ All wf_bop (ps_bops s) /\ clear_section s) ss ->
  written (pc_config ss foot1) data1 [] -> written (pc_config ss foot2) data2 [] ->
  k_entry (config_of opts1) = "init"%string -> k_max (config_of opts1) = 0%N -> utf8_text data1 \/ k_invalid (config_of opts1) = true ->
  k_entry (config_of opts2) = "init"%string -> k_max (config_of opts2) = 0%N -> utf8_text data2 \/ k_invalid (config_of opts2) = true ->
  exists c1 c2 r1 r2, parse opts1 ff1 data1 = (Returned (VConfig c1) [], r1) /\ parse opts2 ff2 data2 = (Returned (VConfig c2) [], r2) /\
    shape_config c1 = shape_config c2.
Proof.
  intros o1 o2 ff1 ff2 ss f1 f2 d1 d2 H W1 W2 E1 M1 U1 E2 M2 U2.
  destruct (C57_reads_back o1 ff1 ss f1 d1 H W1 E1 M1 U1) as (c1 & r1 & P1 & S1).
  destruct (C57_reads_back o2 ff2 ss f2 d2 H W2 E2 M2 U2) as (c2 & r2 & P2 & S2).
  exists c1, c2, r1, r2. split; [exact P1|]. split; [exact P2|]. now rewrite S1, S2.
Qed.
Print Assumptions C57_layout_free.

(** A configuration and two layouts of it: one without any white space, one with a
    comment in the gap between `if` and the condition and one at the end. *)
Definition layout_five : f64 := Eval vm_compute in match parse_float (b "5") with Some v => v | None => NaN end.
Definition layout_plugin : plugin := Plugin zero_pos (b "mutate") [AtNum (NumAttr zero_pos (b "id") layout_five [])] [] [].
Definition layout_section : section :=
  Section_ zero_pos PTFilter
    [BBranch (IfB zero_pos (Cond [ExCmp zero_pos (BoolOp BoNone zero_pos) (RVSel (Sel zero_pos [SelEl zero_pos (b "a")])) (CmpOp CoEq zero_pos) (RVStr (StrAttr zero_pos [] (b "x") DoubleQuoted []))])
       [BPlugin layout_plugin] [] []) [] (ElB (Pos 1 1 0) [] [] [])] [] [].
Definition layout_tight : bytes := b "filter{if[a]==""x""{mutate{id=>5}}else{}}#end".
Definition layout_loose : bytes :=
  b "filter {" ++ [NL] ++ b " if # when" ++ [NL] ++ b " [a] == ""x"" { mutate {" ++ [NL] ++ b "id => 5.0 } } else { } }" ++ [NL].

Ltac ws := repeat first [apply gr_nil | apply gr_ws; [cbn; tauto|]].
Ltac gap g :=
  lazymatch goal with |- exists x u, _ = x ++ u /\ gap_run x u /\ _ => exists g; eexists; split; [reflexivity|]; split; [solve [ws]|] end.
Ltac step :=
  lazymatch goal with
  | |- exists x u, _ = x ++ u /\ gap_run x u /\ _ => fail
  | |- exists x u, _ = x ++ u /\ number_text x /\ _ => fail
  | |- exists u, _ => eexists; split; [reflexivity|]
  end.
Example C57_case :
  Forall (fun s => ps_type s <> PTUndef /\ All wf_bop (ps_bops s) /\ clear_section s) [layout_section] /\
  written (pc_config [layout_section] []) layout_tight [] /\ written (pc_config [layout_section] []) layout_loose [] /\
  utf8_text layout_tight /\ utf8_text layout_loose.
Proof.
  assert (F : forall x, In x [b "5"; b "5.0"] -> number_text x /\ parse_float x = Some layout_five).
  { intros x [<- | [<- |[]]]; (split; [|vm_compute; reflexivity]); exists [], (b "5").
    - exists []. split; [reflexivity|]. split; [now left|]. split; [discriminate|]. split; [constructor; [split; discriminate|constructor]|now left].
    - exists (b ".0"). split; [reflexivity|]. split; [now left|]. split; [discriminate|]. split; [constructor; [split; discriminate|constructor]|]. right. exists (b "0"). split; [reflexivity|]. constructor; [split; discriminate|constructor]. }
  assert (W : forall t, word t -> name_ok t) by (intros t; now left).
  assert (D : forall t, t <> [] -> forallb (fun c => (97 <=? c) && (c <=? 122))%N t = true -> word t).
  { intros t N H. split; [exact N|]. apply Forall_forall. intros c I. apply (proj1 (forallb_forall _ _) H) in I. apply andb_prop in I as [A B]. apply N.leb_le in A, B. left. left. right. left. now split. }
  split; [|split; [|split; [|split]]].
  - constructor; [|constructor]. split; [discriminate|]. split; [|split; [|exact (conj Logic.I Logic.I)]]; (split; [|exact Logic.I]).
    + split; [|split; [exact Logic.I|]]; cbn.
      * split; [|split; [constructor|split; [constructor|]]].
        -- split; [|exact Logic.I]. split; [reflexivity|]. split; [|split; [discriminate|]].
           ++ split; [discriminate|]. split; [|exact Logic.I]. split; [discriminate|]. constructor; [|constructor]. intros K. cbn in K. intuition discriminate.
           ++ split; [reflexivity|]. split; [|split; [discriminate|reflexivity]]. apply is_literal_spec. reflexivity.
        -- split; [|exact Logic.I]. split; [apply W, D; [discriminate|reflexivity]|]. split; [constructor|]. split; [constructor|]. split; [|exact Logic.I].
           split; [apply W, D; [discriminate|reflexivity]|]. split; [|constructor]. exists (b "5"). apply F. now left.
      * split; [constructor|]. split; [constructor|]. split; [exact Logic.I|discriminate].
    + split; [|split; [exact Logic.I|exact (conj Logic.I Logic.I)]]. split; [|exact (conj Logic.I Logic.I)]. split; [|exact Logic.I]. intros (t & E & _). discriminate E.
  - exists 0. cbn -[layout_five]. repeat first [step | gap (@nil N)].
    exists (b "5"). eexists. split; [reflexivity|]. destruct (F (b "5") (or_introl eq_refl)) as [F1 F2]. split; [exact F1|]. split; [exact F2|]. do 12 first [step | gap (@nil N)].
    exists (b "#end"), []. split; [reflexivity|]. split; [|reflexivity]. apply (gr_end (b "end") []); [|now left]. repeat (constructor; [split; discriminate|]). constructor.
  - exists 0. cbn -[layout_five]. gap (@nil N). step. gap [SP]. step. gap [NL; SP]. step.
    eexists (b " # when" ++ [NL; SP]), _. split; [reflexivity|]. split.
    { apply gr_ws; [cbn; tauto|]. apply (gr_com (b " when") [] [SP]); [|now left|ws]. repeat (constructor; [split; discriminate|]). constructor. }
    step. repeat (gap [SP]; step). gap [NL]. step. gap [SP]. step. gap [SP].
    exists (b "5.0"). eexists. split; [reflexivity|]. destruct (F (b "5.0") (or_intror (or_introl eq_refl))) as [F1 F2]. split; [exact F1|]. split; [exact F2|].
    repeat (gap [SP]; step). gap [NL]. reflexivity.
  - apply ascii_utf8. reflexivity.
  - apply ascii_utf8. reflexivity.
Qed.
