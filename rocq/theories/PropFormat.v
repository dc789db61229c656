(** C52-C54, C60: the help output and groups of options. *)

From Coq Require Import List Ascii String NArith ZArith Bool Arith Lia Permutation.
From Verif Require Import Base Errors Spec BaseFacts Values OptDesc Format SpecFormat FormatFacts FormatFacts2 Samples.
Import ListNotations.

Local Open Scope Z_scope.

(** C52. A paragraph is written from column [indent] on as the only text [paragraph] describes. *)
Theorem C52_wrapping : forall ndebug par text hang indent L,
  untabbed par text hang -> 0 <= indent -> indent + hang < L -> fits32 L -> fits32 (len par) ->
  exists out, format_paragraph ndebug par indent L = Ok out /\ paragraph indent L par out
    /\ forall out', paragraph indent L par out' -> out' = out.
Proof.
  intros ndebug par text hang indent L U Hi Hh HL Hp.
  destruct (format_paragraph_spec ndebug U Hi Hh HL Hp) as (lines & W & E).
  assert (P : paragraph indent L par (join (c_nl :: blanks (indent + hang)) lines)) by (econstructor; eauto).
  eexists. split; [exact E|]. split; auto. intros out' P'. exact (paragraph_fun P' P).
Qed.
Print Assumptions C52_wrapping.

(** C52. No line is longer than [L], and all lines are indented, *)
Theorem C52_lines_fit : forall par indent L out,
  paragraph indent L par out -> without c_nl par ->
  exists first others, lines_of out (first :: others) /\ indent + len first <= L
    /\ Forall (fun l => len l <= L /\ exists l', l = blanks indent ++ l') others.
Proof. intros. eapply paragraph_lines; eauto. Qed.
Print Assumptions C52_lines_fit.

(** C52. no visible character is lost, added or moved, *)
Theorem C52_keeps_text : forall par indent L out, paragraph indent L par out -> visible out = visible par.
Proof. intros. eapply paragraph_visible; eauto. Qed.
Print Assumptions C52_keeps_text.

(** C52. and at each break at most one blank disappears: joined again with the blanks that were dropped, the lines
    are the text. *)
Theorem C52_breaks_drop_one_blank : forall w w' text lines,
  wrapped w w' text lines ->
  exists first others, lines = first :: map snd others
    /\ Forall (fun o => fst o = [] \/ fst o = $" ") others
    /\ text = first ++ List.concat (map (fun o => fst o ++ snd o) others).
Proof.
  intros w w' text lines H. induction H as [w w' line Hl|w w' line rest next lines Nl Nr B T Hw IH].
  - exists line, []. cbn. rewrite app_nil_r. auto.
  - destruct IH as (f & o & -> & F & E). destruct T as [c t Hc|t Ht].
    + exists line, (($" ", f) :: o). split; auto. split; [constructor; auto|]. cbn [map List.concat fst snd].
      rewrite <- app_assoc, <- E. reflexivity.
    + exists line, (([], f) :: o). split; auto. split; [constructor; auto|]. cbn [map List.concat fst snd app]. now rewrite <- E.
Qed.
Print Assumptions C52_breaks_drop_one_blank.

(** C52. In the help of an option only the line with its name can be longer than [L] - 1. *)
Theorem C52_help_lines_fit : forall column L d text,
  shown column L d text -> (forall col, first_col d col -> without c_nl col) ->
  exists lines, lines_of text lines /\ Forall (fun l => first_col d l \/ len l <= L - 1) lines.
Proof. exact shown_lines. Qed.
Print Assumptions C52_help_lines_fit.

(** C52. Two tabs are an error; *)
Theorem C52_two_tabs : forall ndebug a b c indent L,
  0 <= indent < L -> fits32 L ->
  format_paragraph ndebug (a ++ c_tab :: b ++ c_tab :: c) indent L =
  Throw (plain_exn (po_error $"Only one tab per paragraph is allowed in the options description")).
Proof. exact format_two_tabs. Qed.
Print Assumptions C52_two_tabs.

(** C52. one that is not on the first line fails an assertion; with NDEBUG it is ignored. *)
Theorem C52_late_tab : forall ndebug par text hang indent L,
  untabbed par text hang -> In c_tab par -> 0 <= indent < L -> L <= indent + hang -> fits32 L -> fits32 (len par) ->
  format_paragraph ndebug par indent L = if ndebug then format_paragraph true text indent L else Undef UB_assert.
Proof. exact format_late_tab. Qed.
Print Assumptions C52_late_tab.

(** C52. A text with a tab and a word that is too long. *)
Definition lined (ls : list str) : str := join [c_nl] ls.
Example C52_ex :
  let par := $"key:" ++ [c_tab] ++ $"a  word and an-unreasonably-long-one" in
  untabbed par $"key:a  word and an-unreasonably-long-one" 4
  /\ format_paragraph false par 2 18 =
     Ok (lined [$"key:a  word and "; $"      an-unreasona"; $"      bly-long-one"])
  /\ paragraph 2 18 par (lined [$"key:a  word and "; $"      an-unreasona"; $"      bly-long-one"]).
Proof.
  cbv zeta.
  assert (U : untabbed ($"key:" ++ [c_tab] ++ $"a  word and an-unreasonably-long-one") $"key:a  word and an-unreasonably-long-one" 4).
  { apply (@one_tab _ $"key:" $"a  word and an-unreasonably-long-one"); [reflexivity| |]; intros I; cbn in I; intuition discriminate. }
  assert (E : format_paragraph false ($"key:" ++ [c_tab] ++ $"a  word and an-unreasonably-long-one") 2 18 =
     Ok (lined [$"key:a  word and "; $"      an-unreasona"; $"      bly-long-one"])) by (vm_compute; reflexivity).
  split; auto. split; auto. apply format_paragraph_sound; auto; vm_compute; intuition discriminate.
Qed.

(** C53. What [print] writes for any tree of options is its help, and nothing else (without NDEBUG; [help] depends
    only on the tree); *)
Theorem C53_print : forall t ods column out,
  build t = Ok ods -> sized t -> 0 < column ->
  print false ods column = Ok out <-> help column t out.
Proof.
  intros t ods column out B S H. apply (proj1 (print_iff H)); [now apply build_built|now apply sized_tree].
Qed.
Print Assumptions C53_print.

(** C53. with NDEBUG the same, if there is a help; *)
Theorem C53_print_ndebug : forall t ods column out,
  build t = Ok ods -> sized t -> 0 < column -> help column t out -> print true ods column = Ok out.
Proof.
  intros t ods column out B S H. apply (proj1 (print_ndebug H)); [now apply build_built|now apply sized_tree].
Qed.
Print Assumptions C53_print_ndebug.

(** C53. if no column is given, a suitable one is used for all groups; *)
Theorem C53_default_column : forall t ods ndebug out,
  build t = Ok ods -> sized t -> sane t -> print ndebug ods 0 = Ok out ->
  exists W, default_column t W /\ print ndebug ods W = Ok out.
Proof.
  intros t ods ndebug out B S Sa H. apply build_built in B.
  assert (exists W, get_option_column_width ods = Ok W) as [W HW].
  { destruct ods as [c L m opts groups]. cbn [print] in H. cbn [Z.eqb] in H. apply bind_Ok in H as (W & HW & _). eauto. }
  pose proof (proj1 width_spec _ _ B Sa (sized_tree S) W HW) as D. exists W. split; auto.
  rewrite <- (print_default ndebug ods HW); auto. destruct D as [_ _ _ X]. lia.
Qed.
Print Assumptions C53_default_column.

(** C53. each level of nesting moves it one to the right, if neither has too little room; *)
Theorem C53_nesting_widens : forall ndebug t ods W caption L m outer,
  build t = Ok ods -> sane t -> get_option_column_width ods = Ok W -> W < tree_length t - tree_min t ->
  build (Tree caption L m [inr t]) = Ok outer -> sane (Tree caption L m [inr t]) -> W < L - m ->
  print ndebug ods 0 = print ndebug ods W /\ print ndebug outer 0 = print ndebug outer (W + 1).
Proof.
  intros ndebug t ods W caption L m outer B Sa HW H0 B' Sa' H2.
  assert (Hmc : forall ds w w', max_column w ds = Ok w' -> w <= w').
  { induction ds as [|d ds IH]; intros w w' E; cbn [max_column] in E.
    - injection E as <-. lia.
    - apply bind_Ok in E as (ss & _ & E). apply IH in E. lia. }
  assert (Hgw : forall gs w w',
    (fix group_widths (w : Z) (gs : list options_description) : outcome Z :=
       match gs with
       | [] => Ok w
       | g :: gs' => let* wg := get_option_column_width g in group_widths (Z.max w wg) gs'
       end) w gs = Ok w' -> w <= w').
  { induction gs as [|g gs IH]; intros w w' E.
    - injection E as <-. lia.
    - apply bind_Ok in E as (wg & _ & E). apply IH in E. lia. }
  pose proof (build_built _ B) as Bt.
  assert (Hf : ods_line_length ods = tree_length t /\ ods_min_description_length ods = tree_min t).
  { inversion Bt; subst; auto. }
  assert (St : 0 <= tree_min t /\ tree_min t + 1 < tree_length t < 4294967296).
  { destruct t. inversion Sa; auto. }
  assert (So : 0 <= m /\ m + 1 < L < 4294967296) by (inversion Sa'; auto).
  destruct ods as [c0 L0 m0 opts groups]. cbn [ods_line_length ods_min_description_length] in Hf. destruct Hf as [-> ->].
  assert (E : exists w, max_column 23 (map fst opts) = Ok w /\ 23 <= w < W).
  { cbn [get_option_column_width] in HW. apply bind_Ok in HW as (w & Ew & HW). apply bind_Ok in HW as (w2 & Ew2 & HW).
    injection HW as HW. apply Hgw in Ew2. pose proof (Hmc _ _ _ Ew). exists w. split; auto.
    unfold usub in HW. rewrite (Z.mod_small (tree_length t - tree_min t)) in HW by lia.
    rewrite (Z.mod_small (_ - _ - 1)) in HW by lia. rewrite Z.mod_small in HW by lia. lia. }
  destruct E as (w & Ew & Hw).
  assert (E : get_option_column_width outer = Ok (W + 1)).
  { cbn [build] in B'. apply bind_Ok in B' as (ds & N & B'). rewrite B in B'. cbn [bind] in B'. injection B' as <-.
    unfold new_options in N. destruct (_ <? _)%Z; [|discriminate]. injection N as <-.
    unfold ods_add_group. cbn [ods_caption ods_line_length ods_min_description_length ods_options ods_groups app].
    remember (mk_ods c0 (tree_length t) (tree_min t) opts groups) as g eqn:Eg.
    cbn [get_option_column_width]. rewrite add_loop_eq, app_nil_l, map_map. cbn [fst].
    subst g. cbn [ods_options]. rewrite map_id, Ew. cbn [bind]. rewrite HW. cbn [bind].
    f_equal. unfold usub. rewrite (Z.mod_small (L - m)) by lia. rewrite (Z.mod_small (L - m - 1)) by lia.
    rewrite Z.mod_small by lia. lia. }
  split; apply print_default; auto; lia.
Qed.
Print Assumptions C53_nesting_widens.

(** C53. and the help shows every option exactly once. *)
Theorem C53_exactly_once : forall t, Permutation (all_options t) (flat_map snd (sections t)).
Proof. exact sections_all. Qed.
Print Assumptions C53_exactly_once.

(** C54. A group contributes exactly its options, in order, *)
Theorem C54_group : forall ds g, ods_list (ods_add_group ds g) = ods_list ds ++ ods_list g.
Proof.
  intros ds g. unfold ods_list, ods_add_group. cbn [ods_options]. rewrite add_loop_eq, map_app, map_map. cbn [fst].
  rewrite map_id. reflexivity.
Qed.
Print Assumptions C54_group.

(** C54. so all lookups see the options in the order in which they are written, however they are nested, *)
Theorem C54_nesting : forall t ods, build t = Ok ods -> ods_list ods = all_options t.
Proof. intros t ods B. apply (proj1 built_options). now apply build_built. Qed.
Print Assumptions C54_nesting.

(** C54. as if they had been added one by one. *)
Theorem C54_flat : forall t ods flat,
  build t = Ok ods ->
  build (Tree (tree_caption t) (tree_length t) (tree_min t) (map inl (all_options t))) = Ok flat ->
  ods_list ods = ods_list flat.
Proof.
  intros t ods flat B B'. rewrite (C54_nesting _ _ B), (C54_nesting _ _ B'). cbn [all_options].
  clear. induction (all_options t) as [|d l IH]; auto. cbn [map flat_map app]. congruence.
Qed.
Print Assumptions C54_flat.

(** C60. Printing succeeds if every option has a name and at most one tab per paragraph of its description, close to
    its beginning, if at least two columns are reserved for descriptions and no group has shorter lines. *)
Theorem C60_print_safe : forall ndebug t ods,
  build t = Ok ods -> sized t -> sane t ->
  2 <= tree_min t -> Forall (fun g => tree_length t <= tree_length g) (subtrees t) ->
  Forall (tidy (tree_min t - 1)) (all_options t) ->
  exists W text, default_column t W /\ help W t text /\ print ndebug ods 0 = Ok text.
Proof. exact print_safe. Qed.
Print Assumptions C60_print_safe.

(** C60. Building fails only in the assertion of the constructor. *)
Theorem C60_build : forall t, sane t -> exists ods, build t = Ok ods.
Proof.
  intros t S. apply build_ok. eapply Forall_impl; [|exact S]. cbn beta. intros t' [A B]. rewrite Z.mod_small; lia.
Qed.
Print Assumptions C60_build.

(** C60. Options made from names have one. *)
Theorem C60_named : forall names sem text d, new_option names sem text = Ok d -> od_short d <> [] \/ od_longs d <> [].
Proof.
  intros names sem text d H. unfold new_option in H. apply bind_Ok in H as ([sh ls] & Hn & H). injection H as <-.
  cbn [od_short od_longs fst snd]. unfold set_names in Hn.
  destruct (is_empty (getline_all c_comma names)) eqn:E; [discriminate|]. apply is_empty_false in E.
  destruct (1 <? List.length (getline_all c_comma names))%nat.
  - destruct (rev (getline_all c_comma names)) as [|[|c [|c2 p]] rest]; injection Hn as <- <-; auto. left. discriminate.
  - injection Hn as <- <-. auto.
Qed.
Print Assumptions C60_named.

(** C60. The conditions are needed: with one column for descriptions and a long name an assertion fails, and without
    assertions the end of the line is computed from a width of 0; *)
Definition long_option : option_description := mk_od [] [repeat "x"%char 80] $"text" tflag.
Theorem C60_narrow_refuted : exists t ods,
  build t = Ok ods /\ sized t /\ sane t /\ tree_min t = 1 /\ all_options t = [long_option]
  /\ print false ods 0 = Undef UB_assert /\ print true ods 0 = Undef UB_index.
Proof.
  exists (Tree [] 80 1 [inl long_option]). eexists. split; [vm_compute; reflexivity|].
  split; [|split; [|split; [reflexivity|split; [reflexivity|split; vm_compute; reflexivity]]]].
  - split.
    + repeat constructor; vm_compute; discriminate.
    + constructor; auto. split; [split; vm_compute; auto; discriminate|].
      intros col Hc. apply first_column_iff in Hc. vm_compute in Hc. injection Hc as <-. vm_compute. intuition discriminate.
  - repeat constructor; vm_compute; discriminate.
Qed.
Print Assumptions C60_narrow_refuted.

(** C60. and so does it for a group with shorter lines than the whole. *)
Theorem C60_short_group_refuted : exists t ods,
  build t = Ok ods /\ sized t /\ sane t /\ 2 <= tree_min t /\ Forall (tidy (tree_min t - 1)) (all_options t)
  /\ print false ods 0 = Undef UB_assert.
Proof.
  set (d := mk_od [] [$"name"] $"text" tflag).
  exists (Tree [] 80 40 [inr (Tree [] 24 12 [inl d])]). eexists. split; [vm_compute; reflexivity|].
  split; [|split; [|split; [discriminate|split; [|vm_compute; reflexivity]]]].
  - split.
    + repeat constructor; vm_compute; discriminate.
    + constructor; auto. split; [split; vm_compute; auto; discriminate|].
      intros col Hc. apply first_column_iff in Hc. vm_compute in Hc. injection Hc as <-. vm_compute. intuition discriminate.
  - repeat constructor; vm_compute; discriminate.
  - constructor; auto. split; [right; discriminate|]. intros pars Hp.
    rewrite (lines_of_fun Hp (split_nl_lines $"text" (cur := []) (fun x => x))). vm_compute split_nl.
    constructor; auto. exists $"text", 0. split; [|reflexivity]. constructor. intros I. cbn in I. intuition discriminate.
Qed.
Print Assumptions C60_short_group_refuted.

(** A tree with a nested group. *)
Definition inner_tree : tree := Tree $"Inner" 80 40 [inl o_number; inl o_log].
Definition outer_tree : tree := Tree $"Outer" 80 40 [inl o_help; inr inner_tree; inl o_input].

Lemma outer_sized : sized outer_tree.
Proof.
  split; [repeat constructor; vm_compute; discriminate|].
  cbn [outer_tree inner_tree all_options flat_map app].
  repeat (constructor; [split; [split; vm_compute; auto; discriminate|
    intros col Hc; apply first_column_iff in Hc; vm_compute in Hc; injection Hc as <-; vm_compute; intuition discriminate]|]).
  constructor.
Qed.

Lemma outer_sane : sane outer_tree.
Proof. repeat constructor; vm_compute; discriminate. Qed.

(** What is built for a tree. *)
Definition made (t : tree) : options_description :=
  match build t with Ok ods => ods | _ => mk_ods [] 0 0 [] [] end.

Lemma made_outer : build outer_tree = Ok (made outer_tree).
Proof. reflexivity. Qed.

(** C53. Its help. *)
Example C53_ex :
  build outer_tree = Ok (made outer_tree) /\ sized outer_tree /\ sane outer_tree
  /\ sections outer_tree = [($"Outer", 80, [o_help; o_input]); ($"Inner", 80, [o_number; o_log])]
  /\ print false (made outer_tree) 0 = Ok (lined
       [$"Outer:";
        $"  -h [ --help ]          print help";
        $"  --input arg            input files";
        $"";
        $"Inner:";
        $"  -n [ --number ] arg    a number";
        $"  --log.* arg            log settings";
        $""])
  /\ exists W out, default_column outer_tree W /\ print false (made outer_tree) 0 = Ok out /\ help W outer_tree out.
Proof.
  split; [exact made_outer|]. split; [exact outer_sized|]. split; [exact outer_sane|].
  split; [reflexivity|].
  match goal with |- print false _ 0 = Ok ?x /\ _ => set (out := x); assert (P : print false (made outer_tree) 0 = Ok out) by (vm_compute; reflexivity) end.
  split; [exact P|].
  destruct (C53_default_column outer_tree _ false _ made_outer outer_sized outer_sane P) as (W & D & E).
  exists W, out. split; [exact D|]. split; [exact P|].
  apply (C53_print outer_tree _ W _ made_outer outer_sized) in E; [exact E|]. destruct D as [_ _ _ X]. exact X.
Qed.

(** C53. The group alone has its descriptions in column 24, inside another one in column 25. *)
Definition wrapped_tree : tree := Tree $"Outer" 80 40 [inr inner_tree].
Example C53_nesting_ex :
  build inner_tree = Ok (made inner_tree) /\ sane inner_tree
  /\ get_option_column_width (made inner_tree) = Ok 24
  /\ build wrapped_tree = Ok (made wrapped_tree) /\ sane wrapped_tree
  /\ print false (made inner_tree) 0 = Ok (lined
       [$"Inner:"; $"  -n [ --number ] arg   a number"; $"  --log.* arg           log settings"; $""])
  /\ print false (made wrapped_tree) 0 = Ok (lined
       [$"Outer:"; $""; $"Inner:"; $"  -n [ --number ] arg    a number"; $"  --log.* arg            log settings"; $""]).
Proof.
  split; [reflexivity|]. split; [repeat constructor; vm_compute; discriminate|]. split; [vm_compute; reflexivity|].
  split; [reflexivity|]. split; [repeat constructor; vm_compute; discriminate|].
  split; vm_compute; reflexivity.
Qed.

(** C54. Its options. *)
Definition flat_tree : tree := Tree $"Outer" 80 40 (map inl [o_help; o_number; o_log; o_input]).
Example C54_ex :
  build outer_tree = Ok (made outer_tree) /\ ods_list (made outer_tree) = [o_help; o_number; o_log; o_input]
  /\ build flat_tree = Ok (made flat_tree) /\ ods_list (made flat_tree) = [o_help; o_number; o_log; o_input].
Proof. repeat split; reflexivity. Qed.

(** C60. It meets the conditions. *)
Example C60_ex :
  sized outer_tree /\ sane outer_tree /\ 2 <= tree_min outer_tree
  /\ Forall (fun g => tree_length outer_tree <= tree_length g) (subtrees outer_tree)
  /\ Forall (tidy (tree_min outer_tree - 1)) (all_options outer_tree).
Proof.
  split; [exact outer_sized|]. split; [exact outer_sane|]. split; [discriminate|]. split.
  - repeat constructor; vm_compute; discriminate.
  - cbn [outer_tree inner_tree all_options flat_map app].
    repeat (constructor; [split; [right; discriminate|intros pars Hp;
      rewrite (lines_of_fun Hp (split_nl_lines _ (cur := []) (fun x => x))); vm_compute split_nl;
      constructor; auto; eexists; exists 0; split; [|reflexivity];
      constructor; intros I; cbn in I; intuition discriminate]|]).
    constructor.
Qed.
