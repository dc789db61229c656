(** Configurations that parse alike. *)

From Coq Require Import List Ascii String NArith ZArith Bool Arith Lia.
From Verif Require Import Base Errors Spec BaseFacts Values OptDesc SpecLookup LookupFacts
  KeyFacts Positional Cmdline SpecCmdline CmdlineFacts RunFacts ParseFacts.
Import ListNotations.

Section Congruence.
  Variables c1 c2 : cmdline.
  Hypothesis Hprefix : cl_prefix c1 = cl_prefix c2.
  Hypothesis Hlookup : forall n, lookup c1 n = lookup c2 n.
  Hypothesis Hunreg : cl_allow_unregistered c1 = cl_allow_unregistered c2.

  Lemma grab_tokens_cong ps1 ps2 key t n o other :
    (forall tok, looks_like_option ps1 [tok] = looks_like_option ps2 [tok]) ->
    grab_tokens c1 ps1 key t n o other = grab_tokens c2 ps2 key t n o other.
  Proof.
    intros Hps. revert t n o; induction other as [|tok rest IH]; intros t n o; [reflexivity|].
    cbn [grab_tokens]. rewrite Hps, Hprefix, Hlookup. destruct (Z.eqb n 0); [reflexivity|].
    destruct (with_context key t (cl_prefix c2) (looks_like_option ps2 [tok])); try reflexivity.
    cbn [bind]. match goal with |- bind ?x _ = _ => destruct x; try reflexivity end.
    cbn [bind]. apply IH.
  Qed.

  Lemma finish_option_cong ps1 ps2 o other :
    (forall tok, looks_like_option ps1 [tok] = looks_like_option ps2 [tok]) ->
    finish_option c1 ps1 o other = finish_option c2 ps2 o other.
  Proof.
    intros Hps. unfold finish_option. rewrite Hprefix, Hlookup, Hunreg.
    destruct (is_empty (po_key o)); [reflexivity|].
    match goal with |- bind ?x _ = _ => destruct x as [[d|]| | |]; try reflexivity end.
    cbn [bind]. destruct (Z.leb _ _); [|reflexivity]. destruct (_ && _); [reflexivity|].
    now apply grab_tokens_cong.
  Qed.

  Lemma finish_all_cong ps1 ps2 os args :
    (forall tok, looks_like_option ps1 [tok] = looks_like_option ps2 [tok]) ->
    finish_all c1 ps1 os args = finish_all c2 ps2 os args.
  Proof.
    intros Hps. induction os as [|o os IH]; [reflexivity|]. cbn [finish_all]. destruct os as [|o2 os].
    - now rewrite (finish_option_cong ps1 ps2).
    - rewrite (finish_option_cong ps1 ps2) by auto. now rewrite IH.
  Qed.

  Lemma try_parsers_cong ps1 ps2 todo1 todo2 args :
    (forall tok, looks_like_option ps1 [tok] = looks_like_option ps2 [tok]) ->
    Forall2 (fun p q : style_parser => forall a, p a = q a) todo1 todo2 ->
    try_parsers c1 ps1 todo1 args = try_parsers c2 ps2 todo2 args.
  Proof.
    intros Hps H. revert args; induction H as [|p q todo1 todo2 Hpq H IH]; intros args; [reflexivity|].
    cbn [try_parsers]. rewrite Hpq. destruct (q args) as [[next a1]| | |]; try reflexivity. cbn [bind].
    rewrite (finish_all_cong ps1 ps2) by auto.
    destruct (finish_all c2 ps2 next a1) as [[fin a2]| | |]; try reflexivity. cbn [bind].
    rewrite IH. reflexivity.
  Qed.

  Lemma looks_like_cong ps1 ps2 args :
    Forall2 (fun p q : style_parser => forall a, p a = q a) ps1 ps2 ->
    looks_like_option ps1 args = looks_like_option ps2 args.
  Proof.
    intros H. revert args; induction H as [|p q ps1 ps2 Hpq H IH]; intros args; [reflexivity|].
    cbn [looks_like_option]. rewrite Hpq. destruct (q args) as [[f n]| | |]; try reflexivity. cbn [bind].
    rewrite IH. reflexivity.
  Qed.

  Lemma merge_cong f rs : merge_pass f c1 rs = merge_pass f c2 rs.
  Proof.
    revert rs; induction f as [|f IH]; intros rs; [reflexivity|]. destruct rs as [|o rest]; [reflexivity|].
    cbn [merge_pass]. rewrite Hlookup, Hprefix, !IH. destruct (is_empty (po_key o)); [reflexivity|].
    match goal with |- bind ?x _ = _ => destruct x as [[d|]| | |]; try reflexivity end. cbn [bind].
    destruct (_ && _); [|reflexivity]. destruct (grab_positional _ _ _) as [[g l]| | |]; try reflexivity.
    cbn [bind]. now rewrite IH.
  Qed.

  Hypothesis Hpos : cl_positional c1 = cl_positional c2.
  Hypothesis Hlci : has (cl_style c1) long_case_insensitive = has (cl_style c2) long_case_insensitive.
  Hypothesis Hsci : has (cl_style c1) short_case_insensitive = has (cl_style c2) short_case_insensitive.

  Lemma case_cong o : set_case_flag c1 o = set_case_flag c2 o.
  Proof. unfold set_case_flag. f_equal. destruct (match po_key o with [] => _ | _ => _ end); auto. Qed.

  Lemma run_cong fuel args :
    (forall tok rest, main_step c1 (tok :: rest) = main_step c2 (tok :: rest)) ->
    run fuel c1 args = run fuel c2 args.
  Proof.
    intros Hstep.
    assert (Hm : forall f a, main_loop f c1 a = main_loop f c2 a).
    { induction f as [|f IH]; intros a; [reflexivity|]. destruct a as [|tok rest]; [reflexivity|].
      cbn [main_loop]. rewrite Hstep. destruct (main_step c2 (tok :: rest)) as [[o b]| | |]; try reflexivity.
      cbn [bind]. now rewrite IH. }
    unfold run. rewrite Hm, Hpos. destruct (main_loop fuel c2 args) as [r1| | |]; try reflexivity. cbn [bind].
    rewrite merge_cong. destruct (merge_pass (List.length r1) c2 r1) as [r2| | |]; try reflexivity. cbn [bind].
    match goal with |- bind ?x _ = _ => destruct x as [r4| | |]; try reflexivity end. cbn [bind].
    f_equal. apply map_ext. apply case_cong.
  Qed.

  Lemma main_step_cong args :
    Forall2 (fun p q : style_parser => forall a, p a = q a) (style_parsers c1) (style_parsers c2) ->
    main_step c1 args = main_step c2 args.
  Proof.
    intros H. unfold main_step. rewrite (try_parsers_cong _ (style_parsers c2) _ (style_parsers c2)); auto.
    intros tok. now apply looks_like_cong.
  Qed.
End Congruence.

(** ** Styles that differ only in the adjacent/next bits *)

Lemma has_testbit s k : (0 <= k)%Z -> has s (2 ^ k) = Z.testbit s k.
Proof.
  intros Hk. unfold has. destruct (Z.testbit s k) eqn:E.
  - destruct (Z.eqb_spec (Z.land s (2 ^ k)) 0) as [E0|]; auto.
    assert (H : Z.testbit (Z.land s (2 ^ k)) k = true).
    { rewrite Z.land_spec, E, Z.pow2_bits_true; auto. }
    rewrite E0, Z.bits_0 in H. discriminate.
  - destruct (Z.eqb_spec (Z.land s (2 ^ k)) 0) as [|E0]; auto. exfalso. apply E0.
    apply Z.bits_inj'. intros n Hn. rewrite Z.land_spec, Z.bits_0.
    destruct (Z.eq_dec n k) as [->|Hne]; [rewrite E; reflexivity|].
    rewrite Z.pow2_bits_false by auto. apply andb_false_r.
Qed.

Lemma same_has s1 s2 k :
  same_but_adjacency s1 s2 -> (0 <= k)%Z -> ~ (4 <= k <= 7)%Z -> has s1 (2 ^ k) = has s2 (2 ^ k).
Proof. intros H Hk Hn. rewrite !has_testbit; auto. Qed.

Section Adjacency.
  Variables c1 c2 : cmdline.
  Let s1 := cl_style c1.
  Let s2 := cl_style c2.
  Hypothesis Hs : same_but_adjacency s1 s2.
  Hypothesis Hdesc : cl_desc c1 = cl_desc c2.

  Lemma adj_long : has s1 allow_long = has s2 allow_long.
  Proof. apply (same_has s1 s2 0 Hs); lia. Qed.
  Lemma adj_short : has s1 allow_short = has s2 allow_short.
  Proof. apply (same_has s1 s2 1 Hs); lia. Qed.
  Lemma adj_dash : has s1 allow_dash_for_short = has s2 allow_dash_for_short.
  Proof. apply (same_has s1 s2 2 Hs); lia. Qed.
  Lemma adj_slash : has s1 allow_slash_for_short = has s2 allow_slash_for_short.
  Proof. apply (same_has s1 s2 3 Hs); lia. Qed.
  Lemma adj_sticky : has s1 allow_sticky = has s2 allow_sticky.
  Proof. apply (same_has s1 s2 8 Hs); lia. Qed.
  Lemma adj_guess : has s1 allow_guessing = has s2 allow_guessing.
  Proof. apply (same_has s1 s2 9 Hs); lia. Qed.
  Lemma adj_lci : has s1 long_case_insensitive = has s2 long_case_insensitive.
  Proof. apply (same_has s1 s2 10 Hs); lia. Qed.
  Lemma adj_sci : has s1 short_case_insensitive = has s2 short_case_insensitive.
  Proof. apply (same_has s1 s2 11 Hs); lia. Qed.
  Lemma adj_disguise : has s1 allow_long_disguise = has s2 allow_long_disguise.
  Proof. apply (same_has s1 s2 12 Hs); lia. Qed.

  Lemma adj_prefix : cl_prefix c1 = cl_prefix c2.
  Proof.
    unfold cl_prefix. fold s1 s2.
    now rewrite adj_long, adj_short, adj_dash, adj_slash, adj_disguise.
  Qed.

  Lemma adj_lookup n : lookup c1 n = lookup c2 n.
  Proof.
    unfold lookup. fold s1 s2.
    now rewrite Hdesc, adj_guess, adj_lci, adj_sci.
  Qed.

  Lemma adj_parse_long a : parse_long_option c1 a = parse_long_option c2 a.
  Proof. unfold parse_long_option. now rewrite adj_prefix. Qed.

  Lemma adj_short_loop tok name adj acc :
    short_loop c1 tok name adj acc = short_loop c2 tok name adj acc.
  Proof.
    revert name acc; induction adj as [|a adj IH]; intros name acc; cbn [short_loop];
      rewrite adj_prefix; fold s1 s2; rewrite Hdesc, adj_sci.
    - reflexivity.
    - rewrite adj_sticky.
      match goal with |- bind ?x _ = _ => destruct x as [[d|]| | |]; try reflexivity end.
      cbn [bind]. destruct (_ && _); [|reflexivity]. apply IH.
  Qed.

  Lemma adj_parsers :
    cl_style_parser c1 = cl_style_parser c2 -> cl_additional c1 = cl_additional c2 ->
    Forall2 (fun p q : style_parser => forall a, p a = q a) (style_parsers c1) (style_parsers c2).
  Proof.
    intros Hsp Had. unfold style_parsers. fold s1 s2. rewrite Hsp, Had. repeat apply Forall2_app.
    - destruct (cl_style_parser c2); repeat constructor.
    - destruct (cl_additional c2); repeat constructor.
    - rewrite adj_long. destruct (has s2 allow_long); repeat constructor. apply adj_parse_long.
    - rewrite adj_disguise. destruct (has s2 allow_long_disguise); repeat constructor.
      intros args. unfold parse_disguised_long_option. rewrite adj_prefix.
      destruct (at_index args 0) as [tok| | |]; try reflexivity. cbn [bind].
      destruct tok as [|x [|y s]]; try reflexivity.
      fold s1 s2. rewrite adj_slash.
      destruct (_ || _); [|reflexivity]. rewrite adj_lookup.
      match goal with |- bind ?x _ = _ => destruct x as [[d|]| | |]; try reflexivity end. cbn [bind].
      destruct (erase_front args); try reflexivity. cbn [bind]. now rewrite adj_parse_long.
    - rewrite adj_short, adj_dash. destruct (_ && _); repeat constructor.
      intros args. unfold parse_short_option.
      destruct (at_index args 0) as [tok| | |]; try reflexivity. cbn [bind].
      destruct tok as [|x [|y s]]; try reflexivity. destruct (_ && _); [|reflexivity].
      now rewrite adj_short_loop.
    - rewrite adj_short, adj_slash. destruct (_ && _); repeat constructor.
    - repeat constructor.
  Qed.
End Adjacency.

Lemma adjacency_lemma c s fuel args :
  same_but_adjacency (cl_style c) s -> run fuel c args = run fuel (with_style c s) args.
Proof.
  intros Hs. apply run_cong; auto.
  - now apply adj_prefix.
  - now apply adj_lookup.
  - now apply adj_lci.
  - now apply adj_sci.
  - intros tok rest. apply main_step_cong; auto.
    + now apply adj_prefix.
    + now apply adj_lookup.
    + now apply adj_parsers.
Qed.

(** ** An additional parser that never answers *)

Lemma null_additional_lemma c f fuel args :
  cl_style_parser c = None -> cl_additional c = Some f -> (forall tok, fst (f tok) = []) ->
  run fuel c args = run fuel (without_additional c) args.
Proof.
  intros Hc Ha Hf.
  assert (Hps : exists ps, style_parsers c = handle_additional_parser f :: ps
    /\ Forall2 (fun p q : style_parser => forall a, p a = q a) ps (style_parsers (without_additional c))).
  { assert (Hs : forall s, same_but_adjacency s s) by (intros s k _ _; reflexivity).
    set (tail := (if has (cl_style c) allow_long then [parse_long_option c] else [])
      ++ (if has (cl_style c) allow_long_disguise then [parse_disguised_long_option c] else [])
      ++ (if has (cl_style c) allow_short && has (cl_style c) allow_dash_for_short then [parse_short_option c] else [])
      ++ (if has (cl_style c) allow_short && has (cl_style c) allow_slash_for_short then [parse_dos_option c] else [])
      ++ [parse_terminator]).
    exists tail. split; [unfold style_parsers; rewrite Hc, Ha; reflexivity|].
    unfold style_parsers. unfold without_additional at 1 2. cbn [cl_additional cl_style_parser].
    rewrite Hc. cbn [app]. unfold tail. clear tail.
    change (cl_style (without_additional c)) with (cl_style c).
    repeat apply Forall2_app.
    - destruct (has (cl_style c) allow_long); [|constructor].
      constructor; [intros ?; reflexivity|constructor].
    - destruct (has (cl_style c) allow_long_disguise); [|constructor].
      constructor; [intros ?; reflexivity|constructor].
    - destruct (has (cl_style c) allow_short && has (cl_style c) allow_dash_for_short); [|constructor].
      constructor; [|constructor]. intros args0. unfold parse_short_option.
      destruct (at_index args0 0) as [tok| | |]; try reflexivity. cbn [bind].
      destruct tok as [|x [|y s]]; try reflexivity. destruct (_ && _); [|reflexivity].
      rewrite (adj_short_loop c (without_additional c)); [reflexivity|apply Hs|reflexivity].
    - destruct (has (cl_style c) allow_short && has (cl_style c) allow_slash_for_short); [|constructor].
      constructor; [intros ?; reflexivity|constructor].
    - repeat constructor. }
  destruct Hps as (ps & Hps & Hall).
  assert (Hnull : forall tok rest, handle_additional_parser f (tok :: rest) = Ok ([], tok :: rest)).
  { intros tok rest. unfold handle_additional_parser. cbn [at_index nth_error bind].
    specialize (Hf tok). destruct (f tok) as [a b]. simpl in Hf. subst a. reflexivity. }
  apply run_cong; auto.
  intros tok rest. unfold main_step. rewrite Hps at 2.
  change (handle_additional_parser f :: ps) with ([handle_additional_parser f] ++ ps).
  rewrite try_skip by (intros p [<-|[]]; apply Hnull).
  rewrite (try_parsers_cong c (without_additional c) eq_refl (fun _ => eq_refl) eq_refl
             _ (style_parsers (without_additional c)) _ (style_parsers (without_additional c))); auto.
  intros t. rewrite Hps. cbn [looks_like_option]. rewrite Hnull. cbn [bind].
  now apply looks_like_cong.
Qed.

(** ** Style validation *)

Lemma style_cond (a b x y : bool) :
  ((a = true \/ b = true -> x = true \/ y = true) <-> (a || b) && negb x && negb y = false).
Proof. destruct a, b, x, y; cbn; intuition discriminate. Qed.

Lemma style_cond1 (a x y : bool) :
  ((a = true -> x = true \/ y = true) <-> a && negb x && negb y = false).
Proof. destruct a, x, y; cbn; intuition discriminate. Qed.

Lemma consistent_has s :
  consistent_style s <->
  (has s allow_long || has s allow_long_disguise) && negb (has s long_allow_adjacent)
    && negb (has s long_allow_next) = false
  /\ has s allow_short && negb (has s short_allow_adjacent) && negb (has s short_allow_next) = false
  /\ has s allow_short && negb (has s allow_dash_for_short) && negb (has s allow_slash_for_short) = false.
Proof.
  unfold consistent_style, bit. rewrite style_cond, !style_cond1.
  change allow_long with (2 ^ 0)%Z. change allow_long_disguise with (2 ^ 12)%Z.
  change long_allow_adjacent with (2 ^ 4)%Z. change long_allow_next with (2 ^ 5)%Z.
  change allow_short with (2 ^ 1)%Z. change short_allow_adjacent with (2 ^ 6)%Z.
  change short_allow_next with (2 ^ 7)%Z. change allow_dash_for_short with (2 ^ 2)%Z.
  change allow_slash_for_short with (2 ^ 3)%Z. rewrite !has_testbit by lia. reflexivity.
Qed.

Lemma consistent_lemma s : s <> 0%Z -> consistent_style s -> set_style s = Ok s.
Proof.
  intros Hs H. apply consistent_has in H. destruct H as (H1 & H2 & H3).
  unfold set_style. rewrite (proj2 (Z.eqb_neq _ _) Hs). unfold check_style. now rewrite H1, H2, H3.
Qed.

Lemma inconsistent_lemma s :
  s <> 0%Z -> ~ consistent_style s ->
  exists msg, set_style s = Throw (plain_exn (invalid_command_line_style msg)).
Proof.
  intros Hs H. rewrite consistent_has in H. unfold set_style.
  rewrite (proj2 (Z.eqb_neq _ _) Hs). unfold check_style.
  destruct ((has s allow_long || _) && _ && _); [eexists; reflexivity|].
  destruct (has s allow_short && negb (has s short_allow_adjacent) && _); [eexists; reflexivity|].
  destruct (has s allow_short && _ && _); [eexists; reflexivity|]. exfalso; auto.
Qed.
