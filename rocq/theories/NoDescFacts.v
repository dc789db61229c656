(** Facts about parsers without a description. *)

From Coq Require Import Ascii String List NArith ZArith Bool Arith Lia.
From Verif Require Import Base Errors Spec BaseFacts Values OptDesc Positional Cmdline Parsers Build Release NoDesc SpecNoDesc.
Import ListNotations.

(** ** Undefined, or as with any description *)

Definition le {A} (x y : outcome A) : Prop := x = Undef UB_null \/ x = y.

Lemma le_refl {A} (x : outcome A) : le x x.
Proof. now right. Qed.

Lemma le_bind {A B} (x y : outcome A) (f g : A -> outcome B) : le x y -> (forall a, le (f a) (g a)) -> le (bind x f) (bind y g).
Proof. intros [->| ->] H; [now left|]. destruct y as [a|e|u|]; cbn; try (now right). apply H. Qed.

Section Refine.
Variable c : cmdline.

Definition ple (p q : style_parser) : Prop := forall args, le (p args) (q args).

Lemma ple_refl p : ple p p.
Proof. intros args. apply le_refl. Qed.

Lemma disguised_le : ple (null_disguised_long_option c) (parse_disguised_long_option c).
Proof.
  intros args. unfold null_disguised_long_option, parse_disguised_long_option. apply le_bind; [apply le_refl|]. intros tok.
  destruct tok as [|c1 [|c2 r]]; try apply le_refl. destruct (_ || _); [now left|apply le_refl].
Qed.

Lemma short_le : ple null_short_option (parse_short_option c).
Proof.
  intros args. unfold null_short_option, parse_short_option. apply le_bind; [apply le_refl|]. intros tok.
  destruct tok as [|c1 [|c2 r]]; try apply le_refl. destruct (_ && _); [now left|apply le_refl].
Qed.

Lemma parsers_le : Forall2 ple (null_style_parsers c) (style_parsers c).
Proof.
  unfold null_style_parsers, style_parsers. cbv zeta.
  apply Forall2_app; [destruct (cl_style_parser c); constructor; [apply ple_refl|constructor]|].
  apply Forall2_app; [destruct (cl_additional c); constructor; [apply ple_refl|constructor]|].
  apply Forall2_app; [destruct (has (cl_style c) allow_long); constructor; [apply ple_refl|constructor]|].
  apply Forall2_app; [destruct (has (cl_style c) allow_long_disguise); constructor; [apply disguised_le|constructor]|].
  apply Forall2_app; [destruct (has (cl_style c) allow_short && has (cl_style c) allow_dash_for_short); constructor; [apply short_le|constructor]|].
  apply Forall2_app; [destruct (has (cl_style c) allow_short && has (cl_style c) allow_slash_for_short); constructor; [apply ple_refl|constructor]|].
  constructor; [apply ple_refl|constructor].
Qed.

Lemma finish_le ps o args : le (null_finish_option o args) (finish_option c ps o args).
Proof. unfold null_finish_option, finish_option. destruct (is_empty (po_key o)); [apply le_refl|now left]. Qed.

Lemma finish_all_le ps next args : le (null_finish_all next args) (finish_all c ps next args).
Proof.
  induction next as [|o next IH]; [apply le_refl|]. cbn [null_finish_all finish_all]. destruct next as [|o2 next].
  - apply le_bind; [apply finish_le|intros; apply le_refl].
  - apply le_bind; [apply finish_le|]. intros r. apply le_bind; [exact IH|intros; apply le_refl].
Qed.

Lemma try_le ps todo todo' : Forall2 ple todo todo' -> forall args, le (null_try_parsers todo args) (try_parsers c ps todo' args).
Proof.
  induction 1 as [|p q todo todo' Hp _ IH]; intros args; [apply le_refl|]. cbn [null_try_parsers try_parsers].
  apply le_bind; [apply Hp|]. intros [next args1]. apply le_bind; [apply finish_all_le|]. intros [fin args2].
  destruct (Nat.eqb _ _); [|apply le_refl]. apply le_bind; [apply IH|]. intros [[? ?] ?]. apply le_refl.
Qed.

Lemma step_le args : le (null_main_step c args) (main_step c args).
Proof.
  unfold null_main_step, main_step. cbv zeta. apply le_bind; [apply try_le, parsers_le|]. intros [[opts args1] ok]. destruct ok; apply le_refl.
Qed.

Lemma loop_le fuel : forall args, le (null_main_loop fuel c args) (main_loop fuel c args).
Proof.
  induction fuel as [|fuel IH]; intros [|a args]; try apply le_refl. cbn [null_main_loop main_loop].
  apply le_bind; [apply step_le|]. intros r. apply le_bind; [apply IH|]. intros; apply le_refl.
Qed.

Lemma merge_le r : le (null_merge_pass r) (rel_merge_pass (length r) c r).
Proof.
  induction r as [|o r IH]; [apply le_refl|]. cbn [length null_merge_pass rel_merge_pass]. destruct (is_empty (po_key o)); [|now left].
  apply le_bind; [exact IH|intros; apply le_refl].
Qed.

Lemma run_le fuel args : le (null_run fuel c args) (rel_run fuel c args).
Proof.
  unfold null_run, rel_run. apply le_bind; [apply loop_le|]. intros r1. apply le_bind; [apply merge_le|]. intros; apply le_refl.
Qed.
End Refine.

(** The description plays no role. *)
Lemma null_run_desc fuel c args ds :
  null_run fuel c args = null_run fuel (mk_cl (cl_style c) (cl_allow_unregistered c) ds (cl_positional c) (cl_additional c) (cl_style_parser c)) args.
Proof.
  set (c' := mk_cl _ _ _ _ _ _). unfold null_run.
  assert (H : forall args, null_main_step c args = null_main_step c' args) by reflexivity.
  assert (Hl : forall fuel args, null_main_loop fuel c args = null_main_loop fuel c' args).
  { intros f. induction f as [|f IH]; intros [|a l]; try reflexivity. cbn [null_main_loop]. rewrite H.
    destruct (null_main_step c' (a :: l)); try reflexivity. cbn [bind]. now rewrite IH. }
  now rewrite Hl.
Qed.

(** ** Words *)

Section Words.
Variable c : cmdline.
Hypothesis Hu : no_user_parsers c.

Lemma refuses ps args : Forall (fun p : style_parser => p args = Ok ([], args)) ps -> null_try_parsers ps args = Ok ([], args, false).
Proof.
  induction 1 as [|p ps Hp _ IH]; [reflexivity|]. cbn [null_try_parsers]. rewrite Hp. cbn [bind null_finish_all].
  now rewrite Nat.eqb_refl, IH.
Qed.

Lemma null_parsers : null_style_parsers c
  = ((if has (cl_style c) allow_long then [parse_long_option c] else [])
    ++ (if has (cl_style c) allow_long_disguise then [null_disguised_long_option c] else [])
    ++ (if has (cl_style c) allow_short && has (cl_style c) allow_dash_for_short then [null_short_option] else [])
    ++ (if has (cl_style c) allow_short && has (cl_style c) allow_slash_for_short then [parse_dos_option c] else [])
    ++ [parse_terminator])%list.
Proof. destruct Hu as [H1 H2]. unfold null_style_parsers. now rewrite H1, H2. Qed.

Lemma eqb_refl_dash x : char_eqb x x = true.
Proof. now apply char_eqb_eq. Qed.

Lemma long_refuses tok rest : (forall a r, tok <> c_dash :: c_dash :: a :: r) -> parse_long_option c (tok :: rest) = Ok ([], tok :: rest).
Proof.
  intros H. unfold parse_long_option. cbn [at_index nth_error bind]. destruct tok as [|c1 [|c2 [|c3 r]]]; try reflexivity.
  destruct (char_eqb c1 c_dash) eqn:E1; [|reflexivity]. destruct (char_eqb c2 c_dash) eqn:E2; [|reflexivity].
  apply char_eqb_eq in E1, E2. subst. now destruct (H c3 r).
Qed.

Lemma dash_refuses tok rest : (forall a r, a <> c_dash -> tok <> c_dash :: a :: r) -> null_short_option (tok :: rest) = Ok ([], tok :: rest).
Proof.
  intros H. unfold null_short_option. cbn [at_index nth_error bind]. destruct tok as [|c1 [|c2 r]]; try reflexivity.
  destruct (char_eqb c1 c_dash) eqn:E1; [|reflexivity]. destruct (char_eqb c2 c_dash) eqn:E2; [reflexivity|].
  apply char_eqb_eq in E1. subst. exfalso. apply (H c2 r); [|reflexivity]. intros ->. now rewrite eqb_refl_dash in E2.
Qed.

Lemma slash_refuses tok rest : (forall a r, tok <> c_slash :: a :: r) -> parse_dos_option c (tok :: rest) = Ok ([], tok :: rest).
Proof.
  intros H. unfold parse_dos_option. cbn [at_index nth_error bind]. destruct tok as [|c1 [|c2 r]]; try reflexivity.
  destruct (char_eqb c1 c_slash) eqn:E1; [|reflexivity]. apply char_eqb_eq in E1. subst. now destruct (H c2 r).
Qed.

Lemma disguised_refuses tok rest :
  (forall a r, a <> c_dash -> tok <> c_dash :: a :: r) -> (has (cl_style c) allow_slash_for_short = true -> forall a r, tok <> c_slash :: a :: r) ->
  null_disguised_long_option c (tok :: rest) = Ok ([], tok :: rest).
Proof.
  intros H Hs. unfold null_disguised_long_option. cbn [at_index nth_error bind]. destruct tok as [|c1 [|c2 r]]; try reflexivity.
  destruct (char_eqb c1 c_dash && negb (char_eqb c2 c_dash)) eqn:E.
  - apply andb_true_iff in E. destruct E as [E1 E2]. apply char_eqb_eq in E1. subst. exfalso. apply (H c2 r); [|reflexivity].
    intros ->. now rewrite eqb_refl_dash in E2.
  - cbn [orb]. destruct (has (cl_style c) allow_slash_for_short); [|reflexivity]. cbn [andb].
    destruct (char_eqb c1 c_slash) eqn:E1; [|reflexivity]. apply char_eqb_eq in E1. subst. now destruct (Hs eq_refl c2 r).
Qed.

Lemma terminator_refuses tok rest : tok <> $"--" -> parse_terminator (tok :: rest) = Ok ([], tok :: rest).
Proof.
  intros H. unfold parse_terminator. cbn [at_index nth_error bind]. destruct (str_eqb tok $"--") eqn:E; [|reflexivity].
  now apply str_eqb_eq in E.
Qed.

(** The parsers before the terminator *)
Lemma forms_refuse tok rest : ~ optionish (cl_style c) tok ->
  Forall (fun p : style_parser => p (tok :: rest) = Ok ([], tok :: rest))
    ((if has (cl_style c) allow_long then [parse_long_option c] else [])
    ++ (if has (cl_style c) allow_long_disguise then [null_disguised_long_option c] else [])
    ++ (if has (cl_style c) allow_short && has (cl_style c) allow_dash_for_short then [null_short_option] else [])
    ++ (if has (cl_style c) allow_short && has (cl_style c) allow_slash_for_short then [parse_dos_option c] else []))%list.
Proof.
  intros Hn. repeat (apply Forall_app; split).
  - destruct (has (cl_style c) allow_long) eqn:E; constructor; auto. apply long_refuses. intros a r ->. apply Hn. now apply os_long.
  - destruct (has (cl_style c) allow_long_disguise) eqn:E; constructor; auto. apply disguised_refuses.
    + intros a r Ha ->. apply Hn. apply os_dash; auto.
    + intros Es a r ->. apply Hn. apply os_slash; auto.
  - destruct (has (cl_style c) allow_short) eqn:E1; [|constructor]. destruct (has (cl_style c) allow_dash_for_short) eqn:E2; constructor; auto.
    apply dash_refuses. intros a r Ha ->. apply Hn. apply os_dash; auto.
  - destruct (has (cl_style c) allow_short) eqn:E1; [|constructor]. destruct (has (cl_style c) allow_slash_for_short) eqn:E2; constructor; auto.
    apply slash_refuses. intros a r ->. apply Hn. apply os_slash; auto.
Qed.

Lemma word_step tok v rest : word (cl_style c) (tok, v) ->
  null_main_step c (tok :: rest) = Ok ([mk_popt [] (-1) [v] [tok] false false], rest).
Proof.
  intros H. unfold null_main_step. rewrite null_parsers. inversion H as [t Ho Hd|t x [Hl [Hv ->]]]; subst.
  - rewrite refuses; [reflexivity|]. rewrite !app_assoc. apply Forall_app. rewrite <- !app_assoc. split; [now apply forms_refuse|].
    constructor; [now apply terminator_refuses|constructor].
  - rewrite Hl. cbn [app null_try_parsers]. unfold parse_long_option at 1. cbn [at_index nth_error bind]. 
    replace (char_eqb c_dash c_dash && char_eqb c_dash c_dash) with true by reflexivity.
    replace (find_char c_eq (c_dash :: c_dash :: c_eq :: v)) with (Some 2) by reflexivity.
    replace (substr (c_dash :: c_dash :: c_eq :: v) (2 + 1)) with v by reflexivity.
    replace (is_empty v) with false by (destruct v; [congruence|reflexivity]).
    cbn [bind]. unfold erase_front. cbn [bind null_finish_all null_finish_option].
    unfold null_finish_option. cbn [po_key]. replace (is_empty (substr_n (c_dash :: c_dash :: c_eq :: v) 2 (2 - 2))) with true by reflexivity.
    cbn [bind fst snd]. replace (Nat.eqb (length rest) (length ((c_dash :: c_dash :: c_eq :: v) :: rest)%list)) with false
      by (symmetry; apply Nat.eqb_neq; cbn [length]; lia).
    destruct v; [congruence|reflexivity].
Qed.

Lemma finish_words next : Forall (fun o => po_key o = []) next -> forall args, null_finish_all next args = Ok (next, args).
Proof.
  induction 1 as [|o next Ho Hn IH]; intros args; [reflexivity|]. cbn [null_finish_all]. unfold null_finish_option. rewrite Ho. cbn [is_empty bind fst snd].
  destruct next as [|o2 next]; [reflexivity|]. now rewrite IH.
Qed.

Lemma end_step rest : null_main_step c ($"--" :: rest) = Ok (map (fun a => mk_popt [] INT_MAX [a] [a] false false) rest, []).
Proof.
  unfold null_main_step. rewrite null_parsers. rewrite !app_assoc. match goal with |- context [(?x ++ [parse_terminator])%list] => set (ps := x) end.
  assert (H : Forall (fun p : style_parser => p ($"--" :: rest) = Ok ([], $"--" :: rest)) ps).
  { subst ps. rewrite <- !app_assoc. apply forms_refuse. intros Ho. inversion Ho; subst; try discriminate; match goal with H : _ <> c_dash |- _ => now destruct H end. }
  assert (E : null_try_parsers (ps ++ [parse_terminator])%list ($"--" :: rest)
            = Ok (map (fun a => mk_popt [] INT_MAX [a] [a] false false) rest, [], true)).
  { clearbody ps. induction H as [|p ps Hp _ IH].
    - cbn [app null_try_parsers]. unfold parse_terminator. cbn [at_index nth_error bind tl].
      replace (str_eqb $"--" $"--") with true by reflexivity. cbn [bind].
      rewrite finish_words by (clear; induction rest; cbn; constructor; auto). reflexivity.
    - cbn [app null_try_parsers]. rewrite Hp. cbn [bind null_finish_all]. rewrite Nat.eqb_refl, IH. reflexivity. }
  now rewrite E.
Qed.

Lemma words_loop ws tail opts : Forall (word (cl_style c)) ws ->
  forall fuel, null_main_loop fuel c tail = opts ->
  null_main_loop (length ws + fuel) c (map fst ws ++ tail)
  = let* r := opts in Ok (map (fun w => mk_popt [] (-1) [snd w] [fst w] false false) ws ++ r)%list.
Proof.
  intros H fuel <-. induction H as [|[tok v] ws Hw _ IH].
  - cbn. destruct (null_main_loop fuel c tail); reflexivity.
  - cbn [length map app Nat.add fst snd null_main_loop]. rewrite (word_step tok v _ Hw). cbn [bind fst snd]. rewrite IH.
    destruct (null_main_loop fuel c tail); reflexivity.
Qed.

Lemma merge_words r : Forall (fun o => po_key o = []) r -> null_merge_pass r = Ok r.
Proof. induction 1 as [|o r Ho _ IH]; [reflexivity|]. cbn [null_merge_pass]. rewrite Ho. cbn [is_empty]. now rewrite IH. Qed.

Lemma number_words ws1 ws2 : forall k,
  map (set_case_flag c)
    (number_positionals k (map (fun w => mk_popt [] (-1) [snd w] [fst w] false false) ws1 ++ map (fun a => mk_popt [] INT_MAX [a] [a] false false) ws2))
  = words_at (has (cl_style c) short_case_insensitive) k (ws1 ++ map (fun a => (a, a)) ws2)%list.
Proof.
  induction ws1 as [|w ws1 IH]; intros k.
  - cbn [map app]. revert k. induction ws2 as [|a ws2 IH]; intros k; [reflexivity|].
    cbn [map number_positionals is_empty po_key words_at fst snd]. now rewrite IH.
  - cbn [map app number_positionals is_empty po_key words_at]. now rewrite IH.
Qed.

Lemma words_run ws more (Hp : cl_positional c = None) : Forall (word (cl_style c)) ws ->
  forall fuel, length (map fst ws ++ match more with Some after => $"--" :: after | None => [] end) <= fuel ->
  null_run fuel c (map fst ws ++ match more with Some after => $"--" :: after | None => [] end)
  = Ok (words_at (has (cl_style c) short_case_insensitive) 0 (ws ++ map (fun a => (a, a)) match more with Some after => after | None => [] end)%list).
Proof.
  intros H fuel Hf. rewrite app_length, map_length in Hf.
  set (rest := match more with Some after => after | None => [] end).
  assert (E : null_main_loop (fuel - length ws) c match more with Some after => $"--" :: after | None => [] end
            = Ok (map (fun a => mk_popt [] INT_MAX [a] [a] false false) rest)).
  { subst rest. destruct more as [after|]; [|now destruct (fuel - length ws)]. cbn [length] in Hf.
    destruct (fuel - length ws) as [|f] eqn:Ef; [lia|]. cbn [null_main_loop]. rewrite end_step. cbn [bind fst snd].
    destruct f; cbn; now rewrite app_nil_r. }
  unfold null_run. replace fuel with (length ws + (fuel - length ws)) by lia. rewrite (words_loop ws _ _ H _ E). cbn [bind].
  rewrite merge_words.
  - cbn [bind]. rewrite Hp. cbn [bind]. now rewrite number_words.
  - apply Forall_app. split; [clear; induction ws|clear; induction rest]; cbn; constructor; auto.
Qed.

(** ** Options *)

Lemma find_last_eq n : without c_eq n -> find_char c_eq (n ++ [c_eq])%list = Some (length n).
Proof. intros H. apply find_char_Some. exists n, []. repeat split; auto. Qed.

Lemma option_step tok rest : optionish (cl_style c) tok -> (forall v, ~ no_name_given (cl_style c) tok v) ->
  ~ no_value_given (cl_style c) tok -> null_main_step c (tok :: rest) = Undef UB_null.
Proof.
  intros Ho Hn Hv. unfold null_main_step. rewrite null_parsers.
  enough (E : forall ps, null_try_parsers
     ((if has (cl_style c) allow_long then [parse_long_option c] else [])
    ++ (if has (cl_style c) allow_long_disguise then [null_disguised_long_option c] else [])
    ++ (if has (cl_style c) allow_short && has (cl_style c) allow_dash_for_short then [null_short_option] else [])
    ++ (if has (cl_style c) allow_short && has (cl_style c) allow_slash_for_short then [parse_dos_option c] else [])
    ++ ps)%list (tok :: rest) = Undef UB_null) by (now rewrite E).
  intros ps. inversion Ho as [a r Hl|a r Hs Ha|a r Hs Hd]; subst.
  - rewrite Hl. cbn [app null_try_parsers]. unfold parse_long_option at 1. cbn [at_index nth_error bind].
    replace (char_eqb c_dash c_dash && char_eqb c_dash c_dash) with true by reflexivity.
    assert (Hf : forall o, po_key o <> [] -> null_finish_all [o] rest = Undef UB_null).
    { intros o Hk. cbn [null_finish_all]. unfold null_finish_option. now destruct (po_key o). }
    destruct (find_char c_eq (c_dash :: c_dash :: a :: r)) as [p|] eqn:E.
    + apply find_char_Some in E. destruct E as (x & y & Et & Hx & <-).
      destruct x as [|x1 x]; [discriminate Et|]. destruct x as [|x2 x]; [discriminate Et|]. injection Et as <- <- Et.
      assert (Es : substr (c_dash :: c_dash :: a :: r) (length (c_dash :: c_dash :: x) + 1) = y).
      { rewrite Et. unfold substr. cbn [length]. change (c_dash :: c_dash :: x ++ c_eq :: y)%list with ((c_dash :: c_dash :: x) ++ c_eq :: y)%list.
        replace (S (S (length x)) + 1) with (length ((c_dash :: c_dash :: x) ++ [c_eq])) by (rewrite app_length; cbn; lia).
        change (c_eq :: y) with ([c_eq] ++ y)%list. rewrite app_assoc. rewrite skipn_app, skipn_all, Nat.sub_diag. reflexivity. }
      rewrite Es. destruct y as [|y0 y].
      * exfalso. apply Hv. split; [exact Hl|]. exists x. split; [cbn; now rewrite Et|]. intros Hi. apply Hx. cbn. auto.
      * cbn [is_empty bind]. unfold erase_front. cbn [bind].
        rewrite Hf; [reflexivity|]. cbn [po_key].
        assert (En : substr_n (c_dash :: c_dash :: a :: r) 2 (length (c_dash :: c_dash :: x) - 2) = x).
        { rewrite Et. unfold substr_n. cbn [length skipn]. replace (S (S (length x)) - 2) with (length x) by lia.
          rewrite firstn_app, Nat.sub_diag, firstn_all. cbn. apply app_nil_r. }
        rewrite En. intros ->. cbn [app] in Et. injection Et as -> ->. apply (Hn (y0 :: y)). split; [exact Hl|]. split; [discriminate|reflexivity].
    + cbn [bind]. unfold erase_front. cbn [bind]. rewrite Hf; [reflexivity|]. cbn. discriminate.
  - assert (Hlong : parse_long_option c ((c_dash :: a :: r) :: rest) = Ok ([], (c_dash :: a :: r) :: rest)).
    { apply long_refuses. intros b q E. congruence. }
    assert (Hd : char_eqb a c_dash = false) by (destruct (char_eqb a c_dash) eqn:E; [apply char_eqb_eq in E; contradiction|reflexivity]).
    assert (Htail : forall qs, (has (cl_style c) allow_long_disguise = true \/ (has (cl_style c) allow_short = true /\ has (cl_style c) allow_dash_for_short = true)) ->
      null_try_parsers ((if has (cl_style c) allow_long_disguise then [null_disguised_long_option c] else [])
         ++ (if has (cl_style c) allow_short && has (cl_style c) allow_dash_for_short then [null_short_option] else []) ++ qs)%list
        ((c_dash :: a :: r) :: rest) = Undef UB_null).
    { intros qs Hq. destruct (has (cl_style c) allow_long_disguise) eqn:Edis.
      - cbn [app null_try_parsers]. unfold null_disguised_long_option. cbn [at_index nth_error bind]. rewrite Hd. reflexivity.
      - destruct Hq as [Hq|[-> ->]]; [discriminate|]. cbn [app andb null_try_parsers]. unfold null_short_option. cbn [at_index nth_error bind].
        rewrite Hd. reflexivity. }
    destruct (has (cl_style c) allow_long).
    + cbn [app null_try_parsers]. rewrite Hlong. cbn [bind null_finish_all]. rewrite Nat.eqb_refl, Htail by exact Hs. reflexivity.
    + cbn [app]. now apply Htail.
  - assert (Hlong : parse_long_option c ((c_slash :: a :: r) :: rest) = Ok ([], (c_slash :: a :: r) :: rest))
      by (apply long_refuses; intros b q E; discriminate).
    assert (Hdash : null_short_option ((c_slash :: a :: r) :: rest) = Ok ([], (c_slash :: a :: r) :: rest))
      by (apply dash_refuses; intros b q Hb E; discriminate).
    assert (H1 : forall p qs, p ((c_slash :: a :: r) :: rest) = Ok ([], (c_slash :: a :: r) :: rest) ->
       null_try_parsers qs ((c_slash :: a :: r) :: rest) = Undef UB_null -> null_try_parsers (p :: qs) ((c_slash :: a :: r) :: rest) = Undef UB_null).
    { intros p qs Hp Hq. cbn [null_try_parsers]. rewrite Hp. cbn [bind null_finish_all]. now rewrite Nat.eqb_refl, Hq. }
    assert (Htail : null_try_parsers ((if has (cl_style c) allow_long_disguise then [null_disguised_long_option c] else [])
      ++ (if has (cl_style c) allow_short && has (cl_style c) allow_dash_for_short then [null_short_option] else [])
      ++ (if has (cl_style c) allow_short && has (cl_style c) allow_slash_for_short then [parse_dos_option c] else []) ++ ps)%list
        ((c_slash :: a :: r) :: rest) = Undef UB_null).
    { destruct (has (cl_style c) allow_long_disguise) eqn:Edis.
      - cbn [app null_try_parsers]. unfold null_disguised_long_option. cbn [at_index nth_error bind]. rewrite Hs. reflexivity.
      - destruct Hd as [Hd|Hd]; [discriminate|]. rewrite Hd, Hs. cbn [app andb].
        assert (Hdos : null_try_parsers ([parse_dos_option c] ++ ps)%list ((c_slash :: a :: r) :: rest) = Undef UB_null) by reflexivity.
        destruct (has (cl_style c) allow_dash_for_short); [|exact Hdos]. now apply H1. }
    destruct (has (cl_style c) allow_long); [|exact Htail]. now apply H1.
Qed.

Lemma empty_step tok rest : no_value_given (cl_style c) tok ->
  exists e, null_main_step c (tok :: rest) = Throw e /\ ex_class e = invalid_command_line_syntax empty_adjacent_parameter.
Proof.
  intros [Hl (n & -> & Hn)]. unfold null_main_step. rewrite null_parsers, Hl. cbn [app null_try_parsers]. unfold parse_long_option at 1.
  cbn [at_index nth_error bind]. 
  assert (Hf : find_char c_eq (c_dash :: c_dash :: n ++ [c_eq])%list = Some (S (S (length n)))).
  { change (c_dash :: c_dash :: n ++ [c_eq])%list with ((c_dash :: c_dash :: n) ++ [c_eq])%list.
    rewrite find_last_eq; [reflexivity|]. intros [E|[E|E]]; try discriminate E. contradiction. }
  assert (Hs : substr (c_dash :: c_dash :: n ++ [c_eq])%list (S (S (length n)) + 1) = []).
  { unfold substr. apply skipn_all2. cbn [length]. rewrite app_length. cbn. lia. }
  destruct n as [|a n]; cbn [app] in *.
  - cbn. eexists. split; reflexivity.
  - replace (char_eqb c_dash c_dash && char_eqb c_dash c_dash) with true by reflexivity. rewrite Hf, Hs. cbn [is_empty bind].
    eexists. split; reflexivity.
Qed.

Lemma loop_at ws tok rest x : Forall (word (cl_style c)) ws -> null_main_step c (tok :: rest) = x -> (forall r, x <> Ok r) ->
  forall fuel, length ws < fuel ->
  null_run fuel c (map fst ws ++ tok :: rest) = match x with Throw e => Throw e | Undef u => Undef u | _ => NoFuel end.
Proof.
  intros H Hx Hn fuel Hf. unfold null_run. replace fuel with (length ws + S (fuel - length ws - 1)) by lia.
  rewrite (words_loop ws _ _ H (S (fuel - length ws - 1)) eq_refl). cbn [null_main_loop]. rewrite Hx.
  destruct x as [r|e|u|]; [now destruct (Hn r)| | |]; reflexivity.
Qed.
End Words.
