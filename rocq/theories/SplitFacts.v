(** Facts about [split_winmain] and [split_unix]. *)

From Coq Require Import List Ascii String NArith Bool Arith Lia.
From Verif Require Import Base Errors Spec BaseFacts Winmain SplitUnix SpecSplit.
Import ListNotations.

(** ** Windows *)

Lemma isspace_iff c : isspace c = true <-> space c.
Proof.
  unfold isspace, space. rewrite orb_true_iff, andb_true_iff, !N.leb_le, N.eqb_eq. tauto.
Qed.

Lemma space_not_special c : space c -> c <> c_dq /\ c <> c_bs.
Proof. unfold space. split; intros ->; cbn in H; lia. Qed.

Lemma char_eqb_false c d : c <> d -> char_eqb c d = false.
Proof. destruct (char_eqb_spec c d); congruence. Qed.

Lemma even_2n n : Nat.even (2 * n) = true.
Proof. apply Nat.even_spec. exists n. lia. Qed.
Lemma even_2n1 n : Nat.even (2 * n + 1) = false.
Proof. rewrite Nat.even_add, even_2n. reflexivity. Qed.
Lemma div2_2n n : Nat.div2 (2 * n) = n.
Proof. apply Nat.div2_double. Qed.
Lemma div2_2n1 n : Nat.div2 (2 * n + 1) = n.
Proof. rewrite Nat.add_1_r. apply Nat.div2_succ_double. Qed.

Lemma loop_backslashes n : forall rest R cur ins eq k sk,
  w_loop (backslashes n ++ rest) (mk_w R cur ins eq k sk)
  = w_loop rest (mk_w R cur ins eq (k + n) (if n =? 0 then sk else false)).
Proof.
  induction n as [|n IH]; intros rest R cur ins eq k sk.
  - cbn [backslashes repeat app]. now rewrite Nat.add_0_r.
  - cbn [backslashes repeat app w_loop]. rewrite andb_false_r. cbn [w_char char_eqb].
    unfold w_char. rewrite (char_eqb_false c_bs c_dq) by discriminate. rewrite char_eqb_refl.
    cbn [w_result w_current w_inside w_empty_quote w_bs]. fold (backslashes n). rewrite IH.
    cbn [Nat.eqb]. replace (S k + n) with (k + S n) by lia. now destruct (n =? 0).
Qed.

Lemma loop_quote R cur ins eq k rest :
  w_loop (c_dq :: rest) (mk_w R cur ins eq (2 * k) false)
  = w_loop rest (mk_w R (cur ++ backslashes k) (negb ins) (ins && is_empty (cur ++ backslashes k)) 0 false).
Proof.
  cbn [w_loop w_skip andb]. unfold w_char. rewrite char_eqb_refl.
  cbn [w_result w_current w_inside w_empty_quote w_bs]. rewrite even_2n, div2_2n. reflexivity.
Qed.

Lemma loop_literal_quote R cur ins eq k rest :
  w_loop (c_dq :: rest) (mk_w R cur ins eq (2 * k + 1) false)
  = w_loop rest (mk_w R (cur ++ backslashes k ++ [c_dq]) ins eq 0 false).
Proof.
  cbn [w_loop w_skip andb]. unfold w_char. rewrite char_eqb_refl.
  cbn [w_result w_current w_inside w_empty_quote w_bs]. rewrite even_2n1, div2_2n1. reflexivity.
Qed.

Lemma loop_char R cur ins eq k sk rest c :
  c <> c_dq -> c <> c_bs -> ins = true \/ ~ space c -> (sk = true -> ~ space c) ->
  w_loop (c :: rest) (mk_w R cur ins eq k sk)
  = w_loop rest (mk_w R (cur ++ backslashes k ++ [c]) ins eq 0 false).
Proof.
  intros H1 H2 H3 H4. cbn [w_loop w_skip].
  assert (E : sk && isspace c = false).
  { destruct sk; auto. cbn. destruct (isspace c) eqn:E; auto. apply isspace_iff in E. now apply H4 in E. }
  rewrite E. unfold w_char. rewrite (char_eqb_false c c_dq), (char_eqb_false c c_bs) by auto.
  cbn [w_result w_current w_inside w_empty_quote w_bs].
  assert (E2 : isspace c && negb ins = false).
  { destruct H3 as [->|H3]; [apply andb_false_r|]. destruct (isspace c) eqn:E2; auto. apply isspace_iff in E2. contradiction. }
  rewrite E2, <- app_assoc. reflexivity.
Qed.

Lemma loop_space R cur eq k rest c :
  space c ->
  w_loop (c :: rest) (mk_w R cur false eq k false)
  = w_loop rest (mk_w (R ++ [cur ++ backslashes k]) [] false false 0 true).
Proof.
  intros H. destruct (space_not_special c H) as [H1 H2]. cbn [w_loop w_skip andb]. unfold w_char.
  rewrite (char_eqb_false c c_dq), (char_eqb_false c c_bs) by auto. apply isspace_iff in H. rewrite H. reflexivity.
Qed.

Lemma loop_spaces b rest s : spaces b -> w_skip s = true -> w_loop (b ++ rest) s = w_loop rest s.
Proof.
  intros Hb Hs. induction Hb as [|c b Hc _ IH]; auto. cbn [app w_loop]. apply isspace_iff in Hc.
  now rewrite Hs, Hc.
Qed.

Lemma loop_body arg body : win_body arg body -> forall R cur eq rest,
  w_loop (body ++ c_dq :: rest) (mk_w R cur true eq 0 false)
  = w_loop rest (mk_w R (cur ++ arg) false (is_empty (cur ++ arg)) 0 false).
Proof.
  induction 1 as [n|n arg body _ IH|n c arg body H1 H2 _ IH]; intros R cur eq rest.
  - rewrite loop_backslashes. cbn [Nat.add]. replace (if 2 * n =? 0 then false else false) with false by now destruct (2 * n =? 0).
    apply loop_quote.
  - rewrite <- app_assoc. cbn [app]. rewrite loop_backslashes.
    replace (if 2 * n + 1 =? 0 then false else false) with false by now destruct (2 * n + 1 =? 0).
    rewrite Nat.add_0_l, loop_literal_quote, IH. now rewrite <- !app_assoc.
  - rewrite <- app_assoc. cbn [app]. rewrite loop_backslashes.
    replace (if n =? 0 then false else false) with false by now destruct (n =? 0).
    rewrite Nat.add_0_l, loop_char by (auto; discriminate). rewrite IH. now rewrite <- !app_assoc.
Qed.

Lemma backslashes_app a b : backslashes a ++ backslashes b = backslashes (a + b).
Proof. unfold backslashes. symmetry. apply repeat_app. Qed.

Lemma loop_plain txt : Forall (fun c => ~ space c /\ c <> c_dq) txt -> forall R cur k sk rest,
  (txt = [] -> sk = false) ->
  exists cur' k', w_loop (txt ++ rest) (mk_w R cur false false k sk)
    = w_loop rest (mk_w R cur' false false k' false)
    /\ cur' ++ backslashes k' = cur ++ backslashes k ++ txt.
Proof.
  induction 1 as [|c txt [H1 H2] _ IH]; intros R cur k sk rest Hsk; cbn [app].
  - exists cur, k. rewrite Hsk, app_nil_r by auto. auto.
  - destruct (ascii_dec c c_bs) as [->|H3].
    + change (c_bs :: txt ++ rest) with (backslashes 1 ++ txt ++ rest). rewrite loop_backslashes. cbn [Nat.eqb].
      destruct (IH R cur (k + 1) false rest (fun _ => eq_refl)) as (cur' & k' & E1 & E2).
      exists cur', k'. split; [exact E1|]. rewrite E2, <- backslashes_app, <- app_assoc. reflexivity.
    + rewrite loop_char by auto.
      destruct (IH R (cur ++ backslashes k ++ [c]) 0 false rest (fun _ => eq_refl)) as (cur' & k' & E1 & E2).
      exists cur', k'. split; [exact E1|]. rewrite E2. cbn [backslashes repeat app].
      rewrite <- !app_assoc. reflexivity.
Qed.

(** After an argument. *)
Lemma loop_written arg text R sk rest :
  win_written arg text ->
  exists cur k eq, w_loop (text ++ rest) (mk_w R [] false false 0 sk)
    = w_loop rest (mk_w R cur false eq k false)
    /\ cur ++ backslashes k = arg /\ (arg = [] -> eq = true).
Proof.
  intros [a body Hb|a Hne Hp].
  - exists a, 0, (is_empty a). split; [|split; [apply app_nil_r|now intros ->]].
    cbn [app]. rewrite <- app_assoc. cbn [app].
    assert (E : w_loop (c_dq :: body ++ c_dq :: rest) (mk_w R [] false false 0 sk)
              = w_loop (c_dq :: body ++ c_dq :: rest) (mk_w R [] false false (2 * 0) false)).
    { cbn [w_loop w_skip]. change (isspace c_dq) with false. now rewrite andb_false_r. }
    rewrite E, loop_quote. cbn [negb andb]. exact (loop_body a body Hb R [] false rest).
  - destruct (loop_plain a Hp R [] 0 sk rest) as (cur & k & E1 & E2); [now intros ->|].
    exists cur, k, false. split; [exact E1|]. split; [exact E2|]. intros ->. contradiction.
Qed.

Lemma loop_line args text : win_line args text -> forall R,
  (exists s, w_loop text (mk_w R [] false false 0 true) = s /\ w_finish s = R ++ args).
Proof.
  induction 1 as [b Hb|b arg text args rest Hb Hw Hl IH Hr]; intros R; eexists; (split; [reflexivity|]).
  - rewrite <- (app_nil_r b), loop_spaces by auto. cbn. now rewrite app_nil_r.
  - rewrite loop_spaces by auto.
    destruct (loop_written arg text R true rest Hw) as (cur & k & eq & E1 & E2 & E3). rewrite E1.
    destruct Hr as [->|(c & rest' & -> & Hc)].
    + assert (Hargs : args = []).
      { remember [] as nothing eqn:En in Hl. destruct Hl as [|b' arg' text' args' rest' _ Hw' _ _]; auto. exfalso.
        apply app_eq_nil in En. destruct En as [_ En]. apply app_eq_nil in En. destruct En as [En _].
        subst text'. inversion Hw'; subst; try discriminate. contradiction. }
      subst args. cbn [w_loop]. unfold w_finish. cbn [w_result w_current w_inside w_empty_quote w_bs].
      fold (backslashes k). rewrite E2. cbn [orb].
      destruct arg as [|c arg]; [rewrite E3 by auto; reflexivity|]. reflexivity.
    + rewrite loop_space by auto. rewrite E2. destruct (IH (R ++ [arg])) as (s & Es & Ef).
      cbn [w_loop w_skip andb] in Es. pose proof Hc as Hc'. apply isspace_iff in Hc'. rewrite Hc' in Es. rewrite Es, Ef, <- app_assoc. reflexivity.
Qed.

Lemma skip_space_spec i : exists b, spaces b /\ i = b ++ skip_space i
  /\ match skip_space i with [] => True | c :: _ => ~ space c end.
Proof.
  induction i as [|c i (b & H1 & H2 & H3)]; cbn [skip_space].
  - exists []. repeat split; auto. constructor.
  - destruct (isspace c) eqn:E.
    + exists (c :: b). split; [constructor; auto; now apply isspace_iff|]. split; [cbn; now rewrite <- H2|auto].
    + exists []. split; [constructor|]. split; [reflexivity|]. rewrite <- isspace_iff. congruence.
Qed.

Lemma split_winmain_line args text : win_line args text -> split_winmain text = args.
Proof.
  intros H. destruct (loop_line args text H []) as (s & Es & Ef). cbn [app] in Ef.
  destruct (skip_space_spec text) as (b & Hb & Et & Hn). unfold split_winmain.
  rewrite Et, loop_spaces in Es by auto. destruct (skip_space text) as [|c i].
  - cbn in Es. subst s. cbn in Ef. congruence.
  - rewrite <- Ef, <- Es. cbn [w_loop w_skip andb]. destruct (isspace c) eqn:E; [apply isspace_iff in E; contradiction|].
    reflexivity.
Qed.

(** Every argument can be written. *)
Lemma win_body_exists arg : exists body, win_body arg body.
Proof.
  assert (H : forall n arg, exists body, win_body (backslashes n ++ arg) body).
  { intros n a. revert n. induction a as [|c a IH]; intros n.
    - exists (backslashes (2 * n)). rewrite app_nil_r. constructor.
    - destruct (ascii_dec c c_bs) as [->|H1].
      + destruct (IH (n + 1)) as [body Hb]. exists body. rewrite <- backslashes_app, <- app_assoc in Hb. exact Hb.
      + destruct (IH 0) as [body Hb]. cbn in Hb. destruct (ascii_dec c c_dq) as [->|H2].
        * eexists. apply wb_quote. exact Hb.
        * eexists. apply wb_char; eauto. }
  exact (H 0 arg).
Qed.

(** Any text. *)
Lemma skip_irrelevant c rest R cur ins eq k sk : ~ space c ->
  w_loop (c :: rest) (mk_w R cur ins eq k sk) = w_loop (c :: rest) (mk_w R cur ins eq k false).
Proof.
  intros H. cbn [w_loop w_skip]. destruct (isspace c) eqn:E; [apply isspace_iff in E; contradiction|].
  now rewrite !andb_false_r.
Qed.

Lemma loop_part q arg text q' : win_part q arg text q' -> forall R cur eq rest,
  exists cur' k eq', w_loop (text ++ rest) (mk_w R cur q eq 0 false) = w_loop rest (mk_w R cur' q' eq' k false)
    /\ cur' ++ backslashes k = cur ++ arg
    /\ (cur ++ arg = [] -> q' = false -> eq' = true \/ (text = [] /\ eq' = eq /\ q' = q)).
Proof.
  assert (Hif : forall n : nat, (if n =? 0 then false else false) = false) by (intros n; now destruct (n =? 0)).
  induction 1 as [q n|q n arg text q' _ IH|q n arg text q' _ IH|q n c arg text q' H1 H2 H3 _ IH]; intros R cur eq rest.
  - exists cur, n, eq. rewrite loop_backslashes, Hif. split; [reflexivity|]. split; [reflexivity|].
    intros H _. apply app_eq_nil in H. destruct H as [_ H]. right. auto.
  - rewrite <- app_assoc. cbn [app]. rewrite loop_backslashes, Hif, Nat.add_0_l, loop_quote.
    destruct (IH R (cur ++ backslashes n) (q && is_empty (cur ++ backslashes n)) rest) as (cur' & k & eq' & E1 & E2 & E3).
    exists cur', k, eq'. split; [exact E1|]. split; [now rewrite E2, <- app_assoc|]. intros He Hq.
    rewrite app_assoc in He. destruct (E3 He Hq) as [E|(_ & E & E')]; [now left|].
    left. apply app_eq_nil in He. destruct He as [He _]. rewrite He in E. subst q'. destruct q; [auto|discriminate].
  - rewrite <- app_assoc. cbn [app]. rewrite loop_backslashes, Hif, Nat.add_0_l, loop_literal_quote.
    destruct (IH R (cur ++ backslashes n ++ [c_dq]) eq rest) as (cur' & k & eq' & E1 & E2 & _).
    exists cur', k, eq'. split; [exact E1|]. split; [rewrite E2, <- !app_assoc; reflexivity|].
    intros He. apply app_eq_nil in He. destruct He as [_ He]. apply app_eq_nil in He. destruct He. discriminate.
  - rewrite <- app_assoc. cbn [app]. rewrite loop_backslashes, Hif, Nat.add_0_l, loop_char by (auto; discriminate).
    destruct (IH R (cur ++ backslashes n ++ [c]) eq rest) as (cur' & k & eq' & E1 & E2 & _).
    exists cur', k, eq'. split; [exact E1|]. split; [rewrite E2, <- !app_assoc; reflexivity|].
    intros He. apply app_eq_nil in He. destruct He as [_ He]. apply app_eq_nil in He. destruct He. discriminate.
Qed.

Lemma part_first arg text q : win_part false arg text q -> text <> [] -> exists c t, text = c :: t /\ ~ space c.
Proof.
  assert (Hbs : forall n t, 0 < n -> exists c t', backslashes n ++ t = c :: t' /\ ~ space c).
  { intros [|n] t Hn; [lia|]. exists c_bs, (backslashes n ++ t). split; [reflexivity|].
    intros Hs. destruct (space_not_special _ Hs) as [_ H]. now apply H. }
  assert (Hdq : ~ space c_dq) by (intros Hs; destruct (space_not_special _ Hs) as [H _]; now apply H).
  intros H Hne. remember false as q0 eqn:Eq. destruct H as [q n|q n arg text q' _|q n arg text q' _|q n c arg text q' H1 H2 H3 _].
  - destruct n as [|n]; [now contradiction Hne|]. rewrite <- (app_nil_r (backslashes (S n))). apply Hbs. lia.
  - destruct n as [|n]; [exists c_dq, text; auto|]. apply Hbs. lia.
  - apply Hbs. lia.
  - destruct n as [|n]; [exists c, text; split; auto; destruct H3; [congruence|auto]|]. apply Hbs. lia.
Qed.

Lemma loop_text args text : win_text args text -> forall R,
  w_finish (w_loop text (mk_w R [] false false 0 true)) = R ++ args.
Proof.
  induction 1 as [b Hb|b arg text q Hb Hp Hne|b arg text c args rest Hb Hp Hne Hc _ IH]; intros R.
  - rewrite <- (app_nil_r b), loop_spaces by auto. cbn. now rewrite app_nil_r.
  - rewrite loop_spaces by auto. destruct (part_first _ _ _ Hp Hne) as (c0 & t & E & Hc0).
    rewrite E, skip_irrelevant, <- E by auto. destruct (loop_part _ _ _ _ Hp R [] false []) as (cur & k & eq & E1 & E2 & E3).
    rewrite app_nil_r in E1. rewrite E1. cbn [w_loop]. unfold w_finish. cbn [w_result w_current w_inside w_empty_quote w_bs].
    fold (backslashes k). rewrite E2. cbn [app] in *. destruct arg as [|x arg]; [|reflexivity].
    cbn [is_empty negb orb]. destruct q; [reflexivity|]. destruct (E3 eq_refl eq_refl) as [->|(H & _)]; [reflexivity|contradiction].
  - rewrite loop_spaces by auto. destruct (part_first _ _ _ Hp Hne) as (c0 & t & E & Hc0).
    rewrite E. cbn [app]. rewrite skip_irrelevant by auto. change (c0 :: t ++ c :: rest) with ((c0 :: t) ++ c :: rest). rewrite <- E.
    destruct (loop_part _ _ _ _ Hp R [] false (c :: rest)) as (cur & k & eq & E1 & E2 & _).
    rewrite E1, loop_space, E2, IH, <- app_assoc by auto. reflexivity.
Qed.

Lemma split_winmain_text args text : win_text args text -> split_winmain text = args.
Proof.
  intros H. pose proof (loop_text args text H []) as Ef. cbn [app] in Ef.
  destruct (skip_space_spec text) as (b & Hb & Et & Hn). unfold split_winmain.
  rewrite Et, loop_spaces in Ef by auto. destruct (skip_space text) as [|c i].
  - cbn in Ef. congruence.
  - rewrite <- Ef. now rewrite (skip_irrelevant c i [] [] false false 0 true).
Qed.

Lemma part_total : forall text q n, exists arg t q' rest,
  backslashes n ++ text = t ++ rest /\ win_part q arg t q'
  /\ (rest = [] \/ (q' = false /\ exists c r, rest = c :: r /\ space c)) /\ List.length rest <= List.length text.
Proof.
  induction text as [|c text IH]; intros q n.
  - exists (backslashes n), (backslashes n), q, []. split; [reflexivity|]. split; [constructor|]. auto.
  - destruct (ascii_dec c c_bs) as [->|H1].
    { destruct (IH q (n + 1)) as (arg & t & q' & rest & E & Hp & Hr & Hl). exists arg, t, q', rest.
      split; [rewrite <- E, <- backslashes_app, <- app_assoc; reflexivity|]. split; [auto|]. split; [auto|]. cbn. lia. }
    destruct (ascii_dec c c_dq) as [->|H2].
    { destruct (Nat.Even_or_Odd n) as [[m Hm]|[m Hm]]; subst n.
      - destruct (IH (negb q) 0) as (arg & t & q' & rest & E & Hp & Hr & Hl). cbn [backslashes repeat app] in E.
        exists (backslashes m ++ arg), (backslashes (2 * m) ++ c_dq :: t), q', rest.
        split; [rewrite E, <- app_assoc; reflexivity|]. split; [now constructor|]. split; [auto|]. cbn. lia.
      - destruct (IH q 0) as (arg & t & q' & rest & E & Hp & Hr & Hl). cbn [backslashes repeat app] in E.
        exists (backslashes m ++ c_dq :: arg), (backslashes (2 * m + 1) ++ c_dq :: t), q', rest.
        split; [rewrite E, <- app_assoc; reflexivity|]. split; [now constructor|]. split; [auto|]. cbn. lia. }
    assert (Hc : q = true \/ ~ space c \/ (q = false /\ space c)).
    { destruct q; auto. destruct (isspace c) eqn:Es; [apply isspace_iff in Es; auto|]. right. left. rewrite <- isspace_iff. congruence. }
    destruct Hc as [Hc|[Hc|[-> Hc]]].
    1,2: destruct (IH q 0) as (arg & t & q' & rest & E & Hp & Hr & Hl); cbn [backslashes repeat app] in E;
        exists (backslashes n ++ c :: arg), (backslashes n ++ c :: t), q', rest;
        (split; [rewrite E, <- app_assoc; reflexivity|]); (split; [constructor; auto|]); (split; [auto|]); cbn; lia.
    exists (backslashes n), (backslashes n), false, (c :: text). split; [reflexivity|]. split; [constructor|]. split; [|auto].
    right. split; auto. eauto.
Qed.

Lemma text_total text : exists args, win_text args text.
Proof.
  remember (List.length text) as n eqn:En. assert (Hn : List.length text <= n) by lia. clear En. revert text Hn.
  induction n as [|n IH]; intros text Hn.
  - destruct text; [|cbn in Hn; lia]. exists []. constructor. constructor.
  - destruct (skip_space_spec text) as (b & Hb & Et & Hc). destruct (skip_space text) as [|c i] eqn:Ei.
    { exists []. rewrite Et, app_nil_r. now constructor. }
    destruct (part_total (c :: i) false 0) as (arg & t & q' & rest & E & Hp & Hr & Hl). cbn [backslashes repeat app] in E.
    assert (Hne : t <> []).
    { intros ->. cbn [app] in E. destruct Hr as [->|[_ (x & r & -> & Hx)]]; [discriminate|]. injection E as -> _. contradiction. }
    assert (Hlen : List.length (c :: i) <= List.length text) by (rewrite Et at 1; rewrite app_length; lia).
    destruct Hr as [->|(-> & x & r & -> & Hx)].
    + exists [arg]. rewrite Et, E, app_nil_r. econstructor; eauto.
    + destruct (IH r) as [args Ha].
      { rewrite E, app_length in Hlen. cbn in Hlen. destruct t; [contradiction|]. cbn in Hlen. lia. }
      exists (arg :: args). rewrite Et, E. now apply wt_arg.
Qed.

(** ** Unix *)

Section Unix.
Variable A : Type.
Variable eqb : A -> A -> bool.
Hypothesis eqb_spec : forall a b, reflect (a = b) (eqb a b).
Variables letter_n newline : A.
Variables sep quote esc : list A.

Notation loop := (escaped_list_loop eqb letter_n newline sep quote esc).
Notation written := (unix_written letter_n newline sep quote esc).
Notation line := (unix_line letter_n newline sep quote esc).
Notation bad := (unix_error letter_n newline sep quote esc).

Lemma exists_In (c : A) (s : list A) : existsb (eqb c) s = true <-> In c s.
Proof.
  rewrite existsb_exists. split.
  - intros (x & Hx & E). destruct (eqb_spec c x); [now subst|discriminate].
  - intros H. exists c. split; auto. now destruct (eqb_spec c c).
Qed.
Lemma exists_false (c : A) (s : list A) : ~ In c s -> existsb (eqb c) s = false.
Proof. intros H. destruct (existsb (eqb c) s) eqn:E; auto. apply exists_In in E. contradiction. Qed.
Lemma exists_true (c : A) (s : list A) : In c s -> existsb (eqb c) s = true.
Proof. apply exists_In. Qed.
Lemma eq_false (a b : A) : a <> b -> eqb a b = false.
Proof. now destruct (eqb_spec a b). Qed.
Lemma eq_refl_b (a : A) : eqb a a = true.
Proof. now destruct (eqb_spec a a). Qed.
Lemma in_or (c : A) (s : list A) : In c s \/ ~ In c s.
Proof. destruct (existsb (eqb c) s) eqn:E; [left; now apply exists_In|right; rewrite <- exists_In; congruence]. Qed.
Lemma eq_or (a b : A) : a = b \/ a <> b.
Proof. destruct (eqb_spec a b); auto. Qed.

Lemma loop_unix q arg text q' : written q arg text q' -> forall rest cur,
  loop (text ++ rest) q cur = loop rest q' (cur ++ arg).
Proof.
  induction 1 as [q|q c arg text q' H1 H2 H3 _ IH|c arg text q' H1 H2 _ IH|q e c arg text q' H1 H2 H3 _ IH
                 |q e arg text q' H1 _ IH|q c arg text q' H1 H2 H3 _ IH]; intros rest cur; cbn [app escaped_list_loop].
  - now rewrite app_nil_r.
  - rewrite (exists_false _ _ H1), (exists_false _ _ H2). destruct q.
    + destruct (existsb (eqb c) sep); rewrite IH, <- app_assoc; reflexivity.
    + rewrite (exists_false c sep) by auto. rewrite IH, <- app_assoc. reflexivity.
  - rewrite (exists_false _ _ H1), (exists_true _ _ H2). rewrite IH, <- app_assoc. reflexivity.
  - rewrite (exists_true _ _ H1), (eq_false _ _ H2).
    assert (E : existsb (eqb c) quote || existsb (eqb c) sep || existsb (eqb c) esc = true).
    { rewrite !orb_true_iff, !exists_In. rewrite !in_app_iff in H3. tauto. }
    rewrite E, IH, <- app_assoc. reflexivity.
  - rewrite (exists_true _ _ H1), eq_refl_b, IH, <- app_assoc. reflexivity.
  - rewrite (exists_true _ _ H1), (exists_false _ _ H2), (exists_false _ _ H3). apply IH.
Qed.

(** The loop after a correct text. *)
Lemma line_loop args text : line args text -> exists init last q, args = init ++ [last]
  /\ forall rest, loop (text ++ rest) false [] = (let* toks := loop rest q last in Ok (init ++ toks)).
Proof.
  induction 1 as [arg text q H|arg text c args rest H [H1 H2] _ (init & last & q & -> & IH)].
  - exists [], arg, q. split; [reflexivity|]. intros rest. rewrite (loop_unix _ _ _ _ H). cbn [app].
    now destruct (loop rest q arg).
  - exists (arg :: init), last, q. split; [reflexivity|]. intros rest'.
    rewrite <- app_assoc. cbn [app]. rewrite (loop_unix _ _ _ _ H). cbn [escaped_list_loop app].
    rewrite (exists_false _ _ H2), (exists_true _ _ H1), IH. now destruct (loop rest' q last).
Qed.

Lemma line_unix args text : line args text -> loop text false [] = Ok args.
Proof.
  intros H. destruct (line_loop _ _ H) as (init & last & q & -> & E). specialize (E []). rewrite app_nil_r in E. now rewrite E.
Qed.

Lemma split_unix_line args text : line args text ->
  split_unix_detail eqb letter_n newline text sep quote esc
  = Ok (filter (fun t => match t with [] => false | _ => true end) args).
Proof.
  intros H. unfold split_unix_detail, escaped_list_tokens. pose proof (line_unix _ _ H) as E.
  destruct text as [|c text]; [|rewrite E; reflexivity].
  cbn in E. injection E as <-. reflexivity.
Qed.

Lemma split_unix_error text msg : bad text msg ->
  split_unix_detail eqb letter_n newline text sep quote esc = Throw (plain_exn (escaped_list_error msg)).
Proof.
  assert (G : forall t x r, loop (t ++ x :: r) false [] = Throw (plain_exn (escaped_list_error msg)) ->
    split_unix_detail eqb letter_n newline (t ++ x :: r) sep quote esc = Throw (plain_exn (escaped_list_error msg))).
  { intros t x r E. unfold split_unix_detail, escaped_list_tokens. destruct (t ++ x :: r) eqn:Et; [|rewrite E; reflexivity].
    destruct t; discriminate. }
  intros H. destruct H as [args text e Hl He|args text e c rest Hl He Hn Hs]; apply G;
    destruct (line_loop _ _ Hl) as (init & last & q & _ & E); rewrite E; cbn [escaped_list_loop];
    rewrite (exists_true _ _ He); [reflexivity|].
  rewrite (eq_false _ _ Hn). rewrite !in_app_iff in Hs. rewrite !exists_false by tauto. reflexivity.
Qed.

Lemma written_app a1 t1 q1 a2 t2 q2 q0 : written q0 a1 t1 q1 -> written q1 a2 t2 q2 -> written q0 (a1 ++ a2) (t1 ++ t2) q2.
Proof.
  intros H1 H2. induction H1; cbn [app]; auto.
  - apply uw_plain; auto.
  - apply uw_quoted_sep; auto.
  - apply uw_escaped; auto.
  - apply uw_newline; auto.
  - apply uw_quote; auto.
Qed.

(** Every text is correct or has an error. *)
Lemma unix_total text : (exists args, line args text) \/ exists msg, bad text msg.
Proof.
  assert (G : forall n text cur pre q, List.length text <= n -> written false cur pre q ->
    (exists args, line args (pre ++ text)) \/ exists msg, bad (pre ++ text) msg).
  { clear text. induction n as [|n IH]; intros text cur pre q Hn Hw.
    - destruct text; [|cbn in Hn; lia]. rewrite app_nil_r. left. exists [cur]. econstructor; eauto.
    - destruct text as [|c text].
      { rewrite app_nil_r. left. exists [cur]. econstructor; eauto. }
      cbn in Hn.
      assert (Hgo : forall mid rest a q2, c :: text = mid ++ rest -> List.length rest <= n -> written q a mid q2 ->
        (exists args, line args (pre ++ c :: text)) \/ exists msg, bad (pre ++ c :: text) msg).
      { intros mid rest a q2 E Hl Ha. rewrite E, app_assoc. apply (IH rest (cur ++ a) (pre ++ mid) q2); auto.
        eapply written_app; eauto. }
      destruct (in_or c esc) as [He|He].
      + destruct text as [|d text].
        { right. eexists. eapply ue_end; eauto. econstructor; eauto. }
        cbn in Hn. destruct (eq_or d letter_n) as [->|Hd].
        { apply (Hgo [c; letter_n] text [newline] q); [reflexivity|lia|]. apply uw_newline; auto. constructor. }
        destruct (in_or d (quote ++ sep ++ esc)) as [Hs|Hs].
        * apply (Hgo [c; d] text [d] q); [reflexivity|lia|]. apply uw_escaped; auto. constructor.
        * right. eexists. eapply ue_unknown; eauto. econstructor; eauto.
      + destruct (in_or c sep) as [Hs|Hs].
        * destruct q.
          -- apply (Hgo [c] text [c] true); [reflexivity|lia|]. apply uw_quoted_sep; auto. constructor.
          -- destruct (IH text [] [] false) as [[args Ha]|[msg Hm]]; [lia|constructor| |].
             ++ left. exists (cur :: args). eapply ul_cons; eauto. split; auto.
             ++ right. exists msg. cbn [app] in Hm. inversion Hm as [args t e Hl Hin Et|args t e x r Hl Hin Hx Hx' Et]; subst.
                ** change (pre ++ c :: t ++ [e]) with (pre ++ (c :: t) ++ [e]). rewrite app_assoc. eapply ue_end; eauto.
                   eapply ul_cons; eauto. split; auto.
                ** change (pre ++ c :: t ++ e :: x :: r) with (pre ++ (c :: t) ++ e :: x :: r). rewrite app_assoc.
                   eapply ue_unknown; eauto. eapply ul_cons; eauto. split; auto.
        * destruct (in_or c quote) as [Hq|Hq].
          -- apply (Hgo [c] text [] (negb q)); [reflexivity|lia|]. apply uw_quote; auto. constructor.
          -- apply (Hgo [c] text [c] q); [reflexivity|lia|]. apply uw_plain; auto. constructor. }
  apply (G _ text [] [] false (le_n _)). constructor.
Qed.

(** A line without escape characters is always read. *)
Lemma no_escape text : Forall (fun c => ~ In c esc) text -> exists args, line args text.
Proof.
  intros H. rewrite Forall_forall in H. destruct (unix_total text) as [Hl|[msg Hb]]; auto. exfalso.
  destruct Hb as [args t e _ He|args t e c rest _ He _ _]; apply (H e); auto; apply in_or_app; right; now left.
Qed.

Lemma kept_filter (l : list (list A)) :
  kept nonempty l (filter (fun t => match t with [] => false | _ => true end) l).
Proof.
  induction l as [|x l IH]; cbn [filter]; [constructor|]. destruct x; [constructor 3; auto|constructor 2; auto; discriminate].
Qed.

Lemma kept_fun {B} (P : B -> Prop) l l1 l2 : kept P l l1 -> kept P l l2 -> l1 = l2.
Proof.
  intros H. revert l2. induction H as [|x l l' Hp _ IH|x l l' Hp _ IH]; intros l2 H2; inversion H2; subst; auto; try contradiction.
  f_equal. auto.
Qed.

(** Every argument can be written, if there is an escape character and 'n' is not special. *)
Lemma unix_written_exists e arg :
  In e esc -> ~ In letter_n (quote ++ sep ++ esc) -> exists text, written false arg text false.
Proof.
  intros He Hn. induction arg as [|c arg [text IH]]; [exists []; constructor|].
  destruct (in_or c (quote ++ sep ++ esc)) as [Hc|Hc].
  - exists (e :: c :: text). apply uw_escaped; auto. intros ->. contradiction.
  - rewrite !in_app_iff in Hc. exists (c :: text). apply uw_plain; [intros Hi; apply Hc; auto|intros Hi; apply Hc; auto|intros _ Hi; apply Hc; auto|exact IH].
Qed.

Lemma join_exists e c args :
  In e esc -> ~ In letter_n (quote ++ sep ++ esc) -> separator sep esc c -> args <> [] ->
  exists text, line args text.
Proof.
  intros He Hn Hc. induction args as [|a args IH]; [contradiction|]. intros _.
  destruct (unix_written_exists e a He Hn) as [text Ht]. destruct args as [|b args].
  - exists text. eapply ul_last; eauto.
  - destruct IH as [rest Hr]; [discriminate|]. exists (text ++ c :: rest). apply ul_cons; auto.
Qed.

End Unix.
