(** Facts about parsers with a style parser supplied by the user. *)

From Coq Require Import List Ascii String NArith ZArith Bool Arith Lia.
From Verif Require Import Base Errors Spec BaseFacts Values OptDesc SpecLookup LookupFacts KeyFacts Positional
  Cmdline SpecCmdline CmdlineFacts RunFacts ParseFacts CongruenceFacts SpecStyle.
Import ListNotations.

Lemma user_parsers c p : exists ps, style_parsers (with_user_parser c p) = p :: ps
  /\ Forall2 (fun p q : style_parser => forall a, p a = q a) ps (style_parsers (without_user_parser c)).
Proof.
  assert (Hs : forall s, same_but_adjacency s s) by (intros s k _ _; reflexivity).
  eexists. split; [reflexivity|]. unfold style_parsers.
  change (cl_style (with_user_parser c p)) with (cl_style c). change (cl_style (without_user_parser c)) with (cl_style c).
  change (cl_additional (with_user_parser c p)) with (cl_additional c). change (cl_additional (without_user_parser c)) with (cl_additional c).
  change (cl_style_parser (without_user_parser c)) with (@None style_parser). cbn [app].
  repeat apply Forall2_app.
  - destruct (cl_additional c); [|constructor]. constructor; [intros ?; reflexivity|constructor].
  - destruct (has (cl_style c) allow_long); [|constructor].
    constructor; [intros ?; reflexivity|constructor].
  - destruct (has (cl_style c) allow_long_disguise); [|constructor].
    constructor; [intros ?; reflexivity|constructor].
  - destruct (has (cl_style c) allow_short && has (cl_style c) allow_dash_for_short); [|constructor].
    constructor; [|constructor]. intros args0. unfold parse_short_option.
    destruct (at_index args0 0) as [tok| | |]; try reflexivity. cbn [bind].
    destruct tok as [|x [|y s]]; try reflexivity. destruct (_ && _); [|reflexivity].
    rewrite (adj_short_loop (with_user_parser c p) (without_user_parser c)); [reflexivity|apply Hs|reflexivity].
  - destruct (has (cl_style c) allow_short && has (cl_style c) allow_slash_for_short); [|constructor].
    constructor; [intros ?; reflexivity|constructor].
  - repeat constructor.
Qed.

Lemma same_parser_In (ps qs : list style_parser) p :
  Forall2 (fun p q : style_parser => forall a, p a = q a) ps qs -> In p ps -> exists q, In q qs /\ forall a, p a = q a.
Proof.
  induction 1 as [|x y xs ys H _ IH]; [contradiction|]. intros [<-|Hin]; [exists y; split; [now left|exact H]|].
  destruct (IH Hin) as (q & Hq & E). exists q. split; [now right|exact E].
Qed.

(** ** Termination *)

Section Weights.
  Variables (c : cmdline) (p : style_parser) (w : str -> nat).
  Hypothesis Hend : returns p.
  Hypothesis Hw : lightens w p.
  Notation cp := (with_user_parser c p).

  Lemma parsers_return q args : In q (style_parsers cp) -> q args <> NoFuel.
  Proof.
    destruct (user_parsers c p) as (ps & -> & Hall). intros [<-|Hin]; [apply Hend|].
    destruct (same_parser_In _ _ _ Hall Hin) as (q' & Hq & ->). eapply style_parser_nofuel; eauto. reflexivity.
  Qed.

  Lemma weighs_app a b : weighs w (a ++ b) = weighs w a + weighs w b.
  Proof. unfold weighs. now rewrite map_app, list_sum_app. Qed.

  Lemma weighs_length a : List.length a <= weighs w a.
  Proof.
    induction a as [|t a IH]; [auto|]. change (t :: a) with ([t] ++ a). rewrite weighs_app, app_length.
    unfold weighs at 1. simpl. pose proof (proj1 Hw t). lia.
  Qed.

  Lemma weighs_drop a b : List.length b <> List.length (a ++ b) -> weighs w b < weighs w (a ++ b).
  Proof. rewrite app_length, weighs_app. intros H. pose proof (weighs_length a). lia. Qed.

  Lemma parsers_lighten q args os left : In q (style_parsers cp) -> q args = Ok (os, left) ->
    weighs w left <= weighs w args /\ (List.length left <> List.length args -> weighs w left < weighs w args).
  Proof.
    destruct (user_parsers c p) as (ps & -> & Hall). intros [<-|Hin] H; [eapply (proj2 Hw); eauto|].
    destruct (same_parser_In _ _ _ Hall Hin) as (q' & Hq & E). rewrite E in H. clear E Hin q.
    destruct args as [|t rest].
    { exfalso. unfold style_parsers in Hq. cbn [without_user_parser cl_style_parser app] in Hq.
      repeat (apply in_app_or in Hq; destruct Hq as [Hq|Hq]);
      try match type of Hq with
          | context [if ?b then _ else _] => destruct b
          | context [match ?x with Some _ => _ | None => _ end] => destruct x
          end;
      try destruct Hq as [<-|[]]; try destruct Hq; discriminate. }
    apply (style_parser_ok (without_user_parser c)) in H; [|reflexivity|exact Hq].
    assert (Hd : weighs w rest < weighs w (t :: rest)) by (apply (weighs_drop [t]); cbn; lia).
    destruct H as [[-> ->]|[[-> _]|(_ & -> & _)]]; [split; [auto|lia]|lia|cbn; unfold weighs in *; cbn in *; lia].
  Qed.

  Lemma finish_suffix ps o args o' args' : finish_option c ps o args = Ok (o', args') -> exists ts, args = ts ++ args'.
  Proof.
    intros H. apply finish_option_ok in H.
    destruct H as [(_ & _ & ->)|[(_ & _ & _ & _ & ->)|(_ & d & ts & _ & -> & _)]]; [now exists []|now exists []|eauto].
  Qed.

  Lemma finish_all_suffix c0 ps os args fs args' : finish_all c0 ps os args = Ok (fs, args') -> exists ts, args = ts ++ args'.
  Proof.
    revert fs; induction os as [|o os IH]; intros fs H; [injection H as _ <-; now exists []|].
    destruct os as [|o2 os].
    - cbn [finish_all] in H. apply bind_Ok in H. destruct H as ((f & a) & H & [= _ <-]). cbn [snd].
      apply finish_option_ok in H.
      destruct H as [(_ & _ & ->)|[(_ & _ & _ & _ & ->)|(_ & d & ts & _ & -> & _)]]; [now exists []|now exists []|eauto].
    - rewrite finish_all_cons in H. apply bind_Ok in H. destruct H as (r & _ & H).
      apply bind_Ok in H. destruct H as ((rs & a) & H & [= _ <-]). eauto.
  Qed.

  Lemma try_lightens todo : (forall q, In q todo -> In q (style_parsers cp)) -> forall args os left ok,
    try_parsers cp (style_parsers cp) todo args = Ok (os, left, ok) ->
    weighs w left <= weighs w args /\ (ok = true -> weighs w left < weighs w args).
  Proof.
    induction todo as [|q todo IH]; intros Hin args os left ok H; cbn [try_parsers] in H.
    - injection H as _ <- <-. split; [auto|discriminate].
    - apply bind_Ok in H. destruct H as ((next & a1) & H1 & H). cbn beta iota in H.
      apply bind_Ok in H. destruct H as ((fin & a2) & H2 & H). cbn beta iota in H.
      apply parsers_lighten in H1; [|apply Hin; now left]. apply finish_all_suffix in H2. destruct H2 as (ts & ->).
      rewrite weighs_app in H1.
      destruct (Nat.eqb_spec (List.length a2) (List.length args)) as [E|E].
      + apply bind_Ok in H. destruct H as (((f2 & a3) & ok2) & H & [= _ <- <-]).
        apply IH in H; [|intros; apply Hin; now right]. destruct H as [HA HB].
        split; [lia|]. intros Ht. specialize (HB Ht). lia.
      + injection H as _ <- <-.
        assert (Hlt : weighs w a2 < weighs w args).
        { destruct ts as [|t ts]; [cbn in H1; apply H1; exact E|].
          pose proof (weighs_length (t :: ts)) as Hl. cbn [List.length] in Hl. lia. }
        split; [lia|auto].
  Qed.

  Lemma user_step_nofuel args : main_step cp args <> NoFuel.
  Proof.
    unfold main_step. apply bind_not_nofuel.
    { apply try_parsers_nofuel; auto. intros q a Hq. now apply parsers_return. }
    intros [[o a] ok] _. destruct ok; [discriminate|].
    apply bind_not_nofuel; [apply at_index_nofuel|]. intros tok _.
    apply bind_not_nofuel; [destruct a; discriminate|]. discriminate.
  Qed.

  Lemma user_step_lightens args os left : main_step cp args = Ok (os, left) -> weighs w left < weighs w args.
  Proof.
    unfold main_step. intros H. apply bind_Ok in H. destruct H as (((o & a) & ok) & H1 & H). cbn beta iota in H.
    apply try_lightens in H1; [|auto]. destruct H1 as [HA HB]. destruct ok; [injection H as _ <-; auto|].
    destruct a as [|t a]; [discriminate|]. cbn in H. injection H as _ <-.
    pose proof (weighs_drop [t] a) as Hd. cbn [List.length app] in Hd. specialize (Hd ltac:(lia)). lia.
  Qed.

  Lemma user_loop_nofuel fuel : forall args, weighs w args <= fuel -> main_loop fuel cp args <> NoFuel.
  Proof.
    induction fuel as [|fuel IH]; intros args Hl; destruct args as [|tok rest]; cbn [main_loop]; try discriminate.
    { pose proof (weighs_length (tok :: rest)) as Hx. cbn [List.length] in Hx. lia. }
    apply bind_not_nofuel; [apply user_step_nofuel|]. intros [o a] Hs. apply user_step_lightens in Hs.
    apply bind_not_nofuel; [apply IH; simpl; lia|]. discriminate.
  Qed.

  Lemma user_run_nofuel fuel args : weighs w args <= fuel ->
    run fuel cp args <> NoFuel /\ run fuel cp args = run (weighs w args) cp args.
  Proof.
    intros Hl. assert (E : main_loop fuel cp args = main_loop (weighs w args) cp args).
    { apply main_loop_more; [apply user_loop_nofuel; auto|exact Hl]. }
    split; [|unfold run; now rewrite E]. unfold run.
    apply bind_not_nofuel; [apply user_loop_nofuel; auto|]. intros r1 _.
    apply bind_not_nofuel; [apply merge_nofuel; auto|]. intros r2 _.
    apply bind_not_nofuel; [|discriminate].
    destruct (cl_positional cp); [apply name_positionals_nofuel|discriminate].
  Qed.
End Weights.

(** ** A style parser that never gets anywhere *)

Lemma swelling_loop c p fuel : swells p -> forall args, args <> [] -> main_loop fuel (with_user_parser c p) args = NoFuel.
Proof.
  intros Hp. induction fuel as [|fuel IH]; intros [|t rest] Hne; try congruence; [reflexivity|].
  cbn [main_loop]. unfold main_step. destruct (user_parsers c p) as (ps & -> & _). cbn [try_parsers].
  destruct (Hp t rest) as (more & -> & Hlen). cbn [bind finish_all].
  destruct (Nat.eqb_spec (List.length more) (List.length (t :: rest))) as [E|E]; [lia|]. cbn [bind fst snd].
  rewrite IH; [reflexivity|]. intros ->. cbn in Hlen. lia.
Qed.

(** ** A style parser that never answers *)

Lemma declining_step c p t rest : declines p ->
  main_step (with_user_parser c p) (t :: rest) = main_step (without_user_parser c) (t :: rest).
Proof.
  intros Hp. unfold main_step. destruct (user_parsers c p) as (ps & Hps & Hall). rewrite Hps at 2.
  change (p :: ps) with ([p] ++ ps). rewrite try_skip by (intros q [<-|[]]; apply Hp).
  rewrite (try_parsers_cong (with_user_parser c p) (without_user_parser c) eq_refl (fun _ => eq_refl) eq_refl
             _ (style_parsers (without_user_parser c)) _ (style_parsers (without_user_parser c))); auto.
  intros tok. rewrite Hps. cbn [looks_like_option]. rewrite Hp. cbn [bind]. now apply looks_like_cong.
Qed.

(** ** Options returned by an arbitrary style parser *)

Definition fine (c : cmdline) (o : popt) : Prop := po_key o = [] \/ is_unregistered c o \/ is_registered c o.

Lemma finish_option_fine c ps o args o' args' : finish_option c ps o args = Ok (o', args') -> fine c o'.
Proof.
  intros H. apply finish_option_ok in H.
  destruct H as [(Hk & -> & _)|[(_ & Hl & Ha & -> & _)|(_ & d & ts & Hl & _ & -> & _ & Hn)]].
  - now left.
  - right; left. split; [reflexivity|split; auto].
  - right; right. exists (po_key o), d. split; [exact Hl|]. cbn [take_tokens with_key po_key po_value].
    split; [apply is_key_od_key|]. rewrite app_length, Nat2Z.inj_add, Hn. lia.
Qed.

Lemma finish_all_fine c ps os args fs args' : finish_all c ps os args = Ok (fs, args') -> Forall (fine c) fs.
Proof.
  revert fs; induction os as [|o os IH]; intros fs H; [injection H as <- _; constructor|].
  destruct os as [|o2 os].
  - cbn [finish_all] in H. apply bind_Ok in H. destruct H as ((f & a) & H & [= <- _]).
    constructor; [|constructor]. eapply finish_option_fine; eauto.
  - rewrite finish_all_cons in H. apply bind_Ok in H. destruct H as ((f & a0) & H0 & H).
    apply bind_Ok in H. destruct H as ((rs & a) & H & [= <- ->]). constructor; [|exact (IH _ H)].
    eapply finish_option_fine; eauto.
Qed.

Lemma try_fine c ps todo : forall args os left ok,
  try_parsers c ps todo args = Ok (os, left, ok) -> Forall (fine c) os.
Proof.
  induction todo as [|q todo IH]; intros args os left ok H; cbn [try_parsers] in H; [injection H as <- _ _; constructor|].
  apply bind_Ok in H. destruct H as ((next & a1) & H1 & H). cbn beta iota in H.
  apply bind_Ok in H. destruct H as ((fin & a2) & H2 & H). cbn beta iota in H. apply finish_all_fine in H2.
  destruct (Nat.eqb _ _); [|injection H as <- _ _; exact H2].
  apply bind_Ok in H. destruct H as (((f2 & a3) & ok2) & H & [= <- _ _]). apply Forall_app. split; [exact H2|eauto].
Qed.

Lemma loop_fine c fuel : forall args r1, main_loop fuel c args = Ok r1 -> Forall (fine c) r1.
Proof.
  induction fuel as [|fuel IH]; intros [|t rest] r1 H; cbn [main_loop] in H; try discriminate; try (injection H as <-; constructor).
  apply bind_Ok in H. destruct H as ((o & a) & Hs & H). apply bind_Ok in H. destruct H as (more & H & [= <-]). cbn [fst snd] in *.
  apply Forall_app. split; [|eauto]. unfold main_step in Hs. apply bind_Ok in Hs. destruct Hs as (((os & a1) & ok) & Ht & Hs).
  cbn beta iota in Hs. apply try_fine in Ht. destruct ok; [injection Hs as <- _; exact Ht|].
  apply bind_Ok in Hs. destruct Hs as (t0 & _ & Hs). apply bind_Ok in Hs. destruct Hs as (r0 & _ & [= <- _]).
  apply Forall_app. split; [exact Ht|]. constructor; [now left|constructor].
Qed.

Lemma merged_fine c a b : merged c a b -> Forall (fine c) a -> Forall (fine c) b.
Proof.
  induction 1 as [|o os rs Hk _ IH|o taken os rs Hk _ _ _ _ IH]; intros Hf; [constructor| |].
  - inversion Hf; subst. constructor; auto.
  - inversion Hf as [|? ? Ho Hr]; subst. apply Forall_app in Hr. constructor; [|tauto].
    destruct Ho as [Ho|[Ho|(typed & d & Hl & Hkey & Hn)]]; [now left|now right; left|right; right].
    exists typed, d. split; [exact Hl|]. split; [exact Hkey|]. unfold absorb. cbn [po_value]. rewrite app_length. lia.
Qed.

Definition settled (c : cmdline) (o : popt) : Prop := po_pos o <> (-1)%Z \/ is_unregistered c o \/ is_registered c o.

Lemma number_settled c rs : forall k, (0 <= k)%Z -> Forall (fine c) rs -> Forall (settled c) (number_positionals k rs).
Proof.
  induction rs as [|o rs IH]; intros k Hk Hf; [constructor|]. inversion Hf as [|? ? Ho Hr]; subst. cbn [number_positionals].
  destruct (is_empty (po_key o)) eqn:E.
  - constructor; [left; cbn [po_pos]; lia|]. apply IH; [lia|exact Hr].
  - apply is_empty_false in E. constructor; [|now apply IH]. destruct Ho as [Ho|Ho]; [congruence|now right].
Qed.

Lemma name_settled c p rs : forall k rs', name_positionals p k rs = Ok rs' -> Forall (settled c) rs -> Forall (settled c) rs'.
Proof.
  induction rs as [|o rs IH]; intros k rs' H Hf; cbn [name_positionals] in H; [injection H as <-; constructor|].
  inversion Hf as [|? ? Ho Hr]; subst. destruct (Z.eqb_spec (po_pos o) (-1)) as [E|E].
  - apply bind_Ok in H. destruct H as (r & H & [= <-]). constructor; eauto.
  - destruct (Z.leb _ _); [discriminate|]. apply bind_Ok in H. destruct H as (n & _ & H).
    apply bind_Ok in H. destruct H as (r & H & [= <-]). constructor; [left; exact E|eauto].
Qed.

Lemma run_settled c fuel args res : run fuel c args = Ok res -> Forall (settled c) res.
Proof.
  intros H. apply run_ok in H. destruct H as (r1 & r2 & r4 & H1 & H2 & H4 & ->).
  apply loop_fine in H1. apply (merged_fine _ _ _ H2) in H1. apply (number_settled c r2 0) in H1; [|lia].
  assert (H5 : Forall (settled c) r4).
  { destruct (cl_positional c); [eapply name_settled; eauto|subst; exact H1]. }
  rewrite Forall_map. eapply Forall_impl; [|exact H5]. intros o Ho. exact Ho.
Qed.

(** ** Response files *)

Section Response.
  Variables (c : cmdline) (content : str -> option (list str)).
  Hypothesis Hlinks : no_links content.
  Notation p := (response_reader content).
  Notation cp := (with_user_parser c p).
  Notation c0 := (without_user_parser c).

  Lemma looks_word tok : content tok = None ->
    looks_like_option (style_parsers cp) [tok] = looks_like_option (style_parsers c0) [tok].
  Proof.
    intros Ht. destruct (user_parsers c p) as (ps & -> & Hall). cbn [looks_like_option response_reader].
    rewrite Ht. cbn [bind is_empty]. now apply looks_like_cong.
  Qed.

  Lemma grab_words key t n o other o' other' :
    grab_tokens cp (style_parsers cp) key t n o other = Ok (o', other') ->
    (forall x, In x (po_orig o') -> content x = None) ->
    grab_tokens c0 (style_parsers c0) key t n o other = Ok (o', other').
  Proof.
    revert t n o; induction other as [|tok rest IH]; intros t n o H Hr; [exact H|]. cbn [grab_tokens] in H |- *.
    destruct (Z.eqb_spec n 0) as [|Hn]; [exact H|].
    change (cl_prefix cp) with (cl_prefix c) in H. change (cl_prefix c0) with (cl_prefix c).
    change (lookup cp tok) with (lookup c tok) in H. change (lookup c0 tok) with (lookup c tok).
    apply bind_Ok in H. destruct H as (f & Hf & H). apply bind_Ok in H. destruct H as (t' & Ht & H).
    assert (Htok : content tok = None).
    { apply Hr. clear - H. revert H. generalize (n - 1)%Z as m. generalize t'. 
      assert (G : forall rest t m q, grab_tokens cp (style_parsers cp) key t m q rest = Ok (o', other') ->
                 forall x, In x (po_orig q) -> In x (po_orig o')).
      { clear. induction rest as [|tok rest IH]; intros t m q H x Hx; cbn [grab_tokens] in H; [injection H as <- _; exact Hx|].
        destruct (Z.eqb m 0); [injection H as <- _; exact Hx|]. apply bind_Ok in H. destruct H as (f & _ & H).
        apply bind_Ok in H. destruct H as (t' & _ & H). eapply IH; [exact H|]. cbn [po_orig]. apply in_or_app. now left. }
      intros t0 m H. eapply G; [exact H|]. cbn [po_orig]. apply in_or_app. right. now left. }
    rewrite <- (looks_word tok Htok), Hf. cbn [bind]. rewrite Ht. cbn [bind]. now apply IH.
  Qed.

  Lemma finish_words o other o' other' :
    finish_option cp (style_parsers cp) o other = Ok (o', other') ->
    (forall x, In x (po_orig o') -> content x = None) ->
    finish_option c0 (style_parsers c0) o other = Ok (o', other').
  Proof.
    unfold finish_option. change (cl_prefix cp) with (cl_prefix c). change (cl_prefix c0) with (cl_prefix c).
    change (lookup cp) with (lookup c). change (lookup c0) with (lookup c).
    change (cl_allow_unregistered cp) with (cl_allow_unregistered c). change (cl_allow_unregistered c0) with (cl_allow_unregistered c).
    intros H Hr. destruct (is_empty (po_key o)); [exact H|].
    destruct (with_context _ _ _ (lookup c (po_key o))) as [[d|]| | |]; try exact H. cbn [bind] in H |- *.
    destruct (Z.leb _ _); [|exact H]. destruct (_ && _); [exact H|]. now apply grab_words.
  Qed.

  Lemma finish_all_words os other fs other' :
    finish_all cp (style_parsers cp) os other = Ok (fs, other') ->
    all_read content fs ->
    finish_all c0 (style_parsers c0) os other = Ok (fs, other').
  Proof.
    unfold all_read. revert fs; induction os as [|o os IH]; intros fs H Hr; [exact H|]. destruct os as [|o2 os].
    - cbn [finish_all] in H |- *. apply bind_Ok in H. destruct H as ((f & a) & H & [= <- <-]).
      rewrite (finish_words _ _ _ _ H); [reflexivity|]. intros x Hx. apply Hr. unfold tokens_of. cbn. now rewrite app_nil_r.
    - rewrite finish_all_cons in H |- *. apply bind_Ok in H. destruct H as ((f & a0) & H0 & H).
      apply bind_Ok in H. destruct H as ((rs & a) & H & [= <- <-]).
      rewrite (finish_words _ _ _ _ H0); [|intros x Hx; apply Hr; unfold tokens_of; cbn; apply in_or_app; now left].
      cbn [bind]. rewrite (IH _ H); [reflexivity|]. intros x Hx. apply Hr. unfold tokens_of. cbn. apply in_or_app. now right.
  Qed.

  Lemma all_read_app a b : all_read content (a ++ b) <-> all_read content a /\ all_read content b.
  Proof.
    unfold all_read. split.
    - intros H. split; intros t Ht; apply H; rewrite tokens_app; apply in_or_app; auto.
    - intros [H1 H2] t. rewrite tokens_app. intros Ht. apply in_app_or in Ht. destruct Ht; auto.
  Qed.

  Lemma try_words ps qs : Forall2 (fun p q : style_parser => forall a, p a = q a) ps qs -> forall args os left ok,
    try_parsers cp (style_parsers cp) ps args = Ok (os, left, ok) -> all_read content os ->
    try_parsers c0 (style_parsers c0) qs args = Ok (os, left, ok).
  Proof.
    induction 1 as [|x y ps qs Hxy _ IH]; intros args os left ok H Hr; [exact H|]. cbn [try_parsers] in H |- *.
    rewrite Hxy in H. apply bind_Ok in H. destruct H as ((next & a1) & H1 & H). rewrite H1. cbn beta iota in H. cbn [bind].
    apply bind_Ok in H. destruct H as ((fin & a2) & H2 & H). cbn beta iota in H.
    destruct (Nat.eqb (List.length a2) (List.length args)) eqn:E.
    - apply bind_Ok in H. destruct H as (((f2 & a3) & ok2) & H3 & [= <- <- <-]). apply all_read_app in Hr. destruct Hr as [HA HB].
      rewrite (finish_all_words _ _ _ _ H2 HA). cbn [bind]. rewrite E, (IH _ _ _ _ H3 HB). reflexivity.
    - injection H as <- <- <-. rewrite (finish_all_words _ _ _ _ H2 Hr). cbn [bind]. now rewrite E.
  Qed.

  (** A step on a token that is not the name of a file. *)
  Lemma step_word t rest os left : content t = None ->
    main_step cp (t :: rest) = Ok (os, left) -> all_read content os -> main_step c0 (t :: rest) = Ok (os, left).
  Proof.
    intros Ht H Hr. unfold main_step in H. destruct (user_parsers c p) as (ps & Hps & Hall).
    rewrite Hps in H at 2. change (p :: ps) with ([p] ++ ps) in H.
    rewrite try_skip in H by (intros q [<-|[]]; cbn [response_reader]; now rewrite Ht).
    apply bind_Ok in H. destruct H as (((o & a) & ok) & H1 & H). cbn beta iota in H. unfold main_step.
    destruct ok.
    - injection H as <- <-. rewrite (try_words _ _ Hall _ _ _ _ H1 Hr). reflexivity.
    - apply bind_Ok in H. destruct H as (t0 & Ht0 & H). apply bind_Ok in H. destruct H as (r0 & Hr0 & [= <- <-]).
      apply all_read_app in Hr. rewrite (try_words _ _ Hall _ _ _ _ H1 (proj1 Hr)). cbn [bind]. now rewrite Ht0, Hr0.
  Qed.

  Lemma step_file t words rest : content t = Some words -> List.length words <> 1 ->
    main_step cp (t :: rest) = Ok ([], words ++ rest).
  Proof.
    intros Ht Hl. unfold main_step. destruct (user_parsers c p) as (ps & -> & _). cbn [try_parsers response_reader].
    rewrite Ht. cbn [bind finish_all]. rewrite app_length.
    destruct (Nat.eqb_spec (List.length words + List.length rest) (List.length (t :: rest))) as [E|E]; [cbn in E; lia|reflexivity].
  Qed.

  Lemma step_link t t' rest : content t = Some [t'] -> main_step cp (t :: rest) = main_step cp (t' :: rest).
  Proof.
    intros Ht. pose proof (Hlinks t t' Ht) as Ht'. unfold main_step. destruct (user_parsers c p) as (ps & Hps & _).
    rewrite Hps at 2 4. cbn [try_parsers response_reader]. rewrite Ht, Ht'. cbn [bind finish_all app List.length].
    rewrite !Nat.eqb_refl. reflexivity.
  Qed.

  (** What a step on a word leaves is a suffix of the tokens, and the tokens it uses are words. *)
  Lemma step_plain_suffix t rest os left : main_step c0 (t :: rest) = Ok (os, left) -> all_read content os ->
    exists used, rest = used ++ left /\ forall x, In x used -> content x = None.
  Proof.
    intros H Hr. apply main_step_ok in H; [|reflexivity]. destruct H as [(os0 & _ & H)|[(_ & -> & ->)|(-> & ->)]].
    - pose proof (finish_all_suffix _ _ _ _ _ _ H) as (used & E). exists used. split; [exact E|].
      apply finish_all_tokens in H. rewrite E, app_assoc in H. apply app_inv_tail in H.
      intros x Hx. apply Hr. rewrite H. apply in_or_app. now right.
    - exists rest. split; [now rewrite app_nil_r|]. intros x Hx. apply Hr. unfold tokens_of. rewrite map_map.
      cbn [term_opt po_orig]. apply in_concat. exists [x]. split; [|now left]. apply in_map_iff. eauto.
    - exists []. split; [reflexivity|contradiction].
  Qed.

  (** A step does not look beyond the tokens it uses. *)
  Lemma expands_app used left out : (forall x, In x used -> content x = None) -> expands content left out ->
    expands content (used ++ left) (used ++ out).
  Proof.
    induction used as [|x used IH]; intros Hu H; [exact H|]. cbn. constructor; [apply Hu; now left|].
    apply IH; [|exact H]. intros y Hy. apply Hu. now right.
  Qed.
  Lemma grab_swap c1 ps key t n o used left out o' :
    grab_tokens c1 ps key t n o (used ++ left) = Ok (o', left) -> n = Z.of_nat (List.length used) ->
    grab_tokens c1 ps key t n o (used ++ out) = Ok (o', out).
  Proof.
    revert t n o; induction used as [|x used IH]; intros t n o H Hn.
    - cbn in Hn. subst n. cbn [app] in *. destruct left, out; cbn in H |- *; congruence.
    - cbn [app grab_tokens] in H |- *. destruct (Z.eqb_spec n 0) as [|Hne]; [cbn [List.length] in Hn; lia|].
      apply bind_Ok in H. destruct H as (f & -> & H). cbn [bind]. apply bind_Ok in H. destruct H as (t' & Ht & H).
      rewrite Ht. cbn [bind]. apply IH; [exact H|]. cbn [List.length] in Hn. lia.
  Qed.

  Lemma finish_swap c1 ps o used left out o' :
    finish_option c1 ps o (used ++ left) = Ok (o', left) -> finish_option c1 ps o (used ++ out) = Ok (o', out).
  Proof.
    intros H. pose proof (finish_option_ok _ _ _ _ _ _ H) as K. unfold finish_option in H |- *.
    assert (Hnil : used ++ left = left -> used = []).
    { intros E. apply (f_equal (@List.length _)) in E. rewrite app_length in E. destruct used; [reflexivity|cbn in E; lia]. }
    destruct (is_empty (po_key o)) eqn:Ek.
    { injection H as <- E. apply Hnil in E. now subst used. }
    apply is_empty_false in Ek. apply bind_Ok in H. destruct H as (xd & Hl & H). rewrite Hl. cbn [bind].
    apply with_context_Ok in Hl. destruct xd as [d|].
    2: { destruct (cl_allow_unregistered c1); [|discriminate]. injection H as <- E. apply Hnil in E. now subst used. }
    destruct K as [(K & _)|[(_ & K & _)|(_ & d' & ts & K & E & _ & _ & Hn)]]; try congruence.
    assert (d' = d) by congruence. subst d'. apply app_inv_tail in E. subst ts.
    set (n := Z.of_nat (List.length (po_value o))) in *.
    destruct (Z.leb_spec (vs_min (od_sem d)) (n + Z.of_nat (List.length (used ++ left)))) as [H1|H1]; [|discriminate].
    destruct (Z.leb_spec (vs_min (od_sem d)) (n + Z.of_nat (List.length (used ++ out)))) as [H2|H2].
    2: { rewrite app_length in H2. lia. }
    destruct (_ && _); [discriminate|]. eapply grab_swap; [exact H|].
    destruct (Z.leb_spec n (vs_min (od_sem d))); lia.
  Qed.

  Lemma finish_all_swap c1 ps os used left out fs :
    finish_all c1 ps os (used ++ left) = Ok (fs, left) -> finish_all c1 ps os (used ++ out) = Ok (fs, out).
  Proof.
    revert fs; induction os as [|o os IH]; intros fs H.
    - cbn [finish_all] in H |- *. injection H as <- E. apply (f_equal (@List.length _)) in E.
      rewrite app_length in E. destruct used; [reflexivity|cbn in E; lia].
    - destruct os as [|o2 os].
      + cbn [finish_all] in H |- *. apply bind_Ok in H. destruct H as ((f & a) & H & E). cbn [fst snd] in E.
        injection E as <- ->. now rewrite (finish_swap _ _ _ _ _ out _ H).
      + rewrite finish_all_cons in H |- *. apply bind_Ok in H. destruct H as (r & -> & H). cbn [bind].
        apply bind_Ok in H. destruct H as ((rs & a) & H & E). cbn [fst snd] in E. injection E as <- ->.
        now rewrite (IH _ H).
  Qed.

  Lemma try_swap ps todo tok used left out os : (left = [] -> out = []) -> (forall q, In q todo -> In q (style_parsers c0)) ->
    try_parsers c0 ps todo (tok :: used ++ left) = Ok (os, left, true) ->
    try_parsers c0 ps todo (tok :: used ++ out) = Ok (os, out, true).
  Proof.
    intros Ht. destruct (list_eq_dec (list_eq_dec ascii_dec) left []) as [El|El].
    { intros _. rewrite (Ht El), El. auto. }
    revert os; induction todo as [|q todo IH]; intros os Hin H; cbn [try_parsers] in H |- *; [discriminate|].
    apply bind_Ok in H. destruct H as ((next & args1) & Hp & H). cbn beta iota in H.
    apply bind_Ok in H. destruct H as ((fin & args2) & Hf & H). cbn beta iota in H.
    assert (Hcase : (q (tok :: used ++ out) = Ok ([], tok :: used ++ out) /\ next = [] /\ args1 = tok :: used ++ left)
                    \/ (q (tok :: used ++ out) = Ok (next, used ++ out) /\ args1 = used ++ left)).
    { destruct (style_parser_local c0 q eq_refl (Hin q (or_introl eq_refl))) as [->|Hl].
      - unfold parse_terminator in Hp |- *. cbn [at_index nth_error bind] in Hp |- *.
        destruct (str_eqb_spec tok $"--") as [E|E]; [|injection Hp as <- <-; auto].
        exfalso. injection Hp as <- <-. change (finish_all c0 ps (map term_opt (used ++ left)) [] = Ok (fin, args2)) in Hf.
        rewrite finish_all_term in Hf. injection Hf as <- <-. cbn in H. injection H as _ <-. now apply El.
      - destruct (Hl tok) as [h Hh]. rewrite Hh in Hp |- *.
        apply bind_Ok in Hp. destruct Hp as (o & -> & Hp). cbn [bind].
        destruct o as [os0|]; injection Hp as <- <-; auto. }
    destruct Hcase as [(-> & -> & ->)|(-> & ->)]; cbn [bind].
    - cbn [finish_all] in Hf |- *. injection Hf as <- <-. cbn [bind]. rewrite Nat.eqb_refl in *.
      apply bind_Ok in H. destruct H as (((f & a) & k) & H1 & E). cbn [app] in E. injection E as <- -> ->.
      rewrite (IH _ (fun q Hq => Hin q (or_intror Hq)) H1). reflexivity.
    - pose proof (finish_all_suffix _ _ _ _ _ _ Hf) as (ts & E).
      assert (Hle : List.length args2 <= List.length (used ++ left)) by (rewrite E, app_length; lia).
      destruct (Nat.eqb_spec (List.length args2) (List.length (tok :: used ++ left))) as [E2|E2]; [cbn [List.length] in E2; lia|].
      injection H as <- ->. rewrite (finish_all_swap _ _ _ _ _ out _ Hf). cbn [bind].
      destruct (Nat.eqb_spec (List.length out) (List.length (tok :: used ++ out))) as [E3|E3]; [|reflexivity].
      cbn [List.length] in E3. rewrite app_length in E3. lia.
  Qed.

  Lemma try_false_left todo : forall ps tok rest os left, (forall q, In q todo -> In q (style_parsers c0)) ->
    try_parsers c0 ps todo (tok :: rest) = Ok (os, left, false) -> os = [] /\ left = tok :: rest /\
    forall rest', try_parsers c0 ps todo (tok :: rest') = Ok ([], tok :: rest', false).
  Proof.
    induction todo as [|q todo IH]; intros ps tok rest os left Hin H; cbn [try_parsers] in H |- *; [injection H as <- <-; auto|].
    apply bind_Ok in H. destruct H as ((next & args1) & Hp & H). cbn beta iota in H.
    apply bind_Ok in H. destruct H as ((fin & args2) & Hf & H). cbn beta iota in H.
    destruct (Nat.eqb_spec (List.length args2) (List.length (tok :: rest))) as [E|E]; [|discriminate].
    pose proof (style_parser_ok c0 q tok rest next args1 eq_refl (Hin q (or_introl eq_refl)) Hp) as K.
    pose proof (finish_all_suffix _ _ _ _ _ _ Hf) as (ts & Es).
    apply (f_equal (@List.length _)) in Es. rewrite app_length in Es.
    destruct K as [[-> ->]|[[-> _]|(_ & -> & _)]]; [|cbn [List.length] in *; lia|cbn [List.length] in *; lia].
    cbn [finish_all] in Hf. injection Hf as <- <-. apply bind_Ok in H. destruct H as (((f & a) & k) & H1 & E1).
    cbn [app] in E1. injection E1 as <- -> ->. destruct (IH _ _ _ _ _ (fun q Hq => Hin q (or_intror Hq)) H1) as (-> & -> & Hall).
    split; [reflexivity|]. split; [reflexivity|]. intros rest'.
    assert (Hq : q (tok :: rest') = Ok ([], tok :: rest')).
    { destruct (style_parser_local c0 q eq_refl (Hin q (or_introl eq_refl))) as [->|Hl].
      - unfold parse_terminator in Hp |- *. cbn [at_index nth_error bind] in Hp |- *.
        destruct (str_eqb_spec tok $"--") as [E0|E0]; [discriminate|reflexivity].
      - destruct (Hl tok) as [h Hh]. rewrite Hh in Hp |- *.
        apply bind_Ok in Hp. destruct Hp as (o & -> & Hp). cbn [bind].
        destruct o as [os0|]; [|reflexivity]. exfalso. injection Hp as _ Hx. apply (f_equal (@List.length _)) in Hx. cbn in Hx. lia. }
    rewrite Hq. cbn [bind finish_all]. rewrite Nat.eqb_refl, (Hall rest'). reflexivity.
  Qed.

  Lemma step_swap tok used left out os : (left = [] -> out = []) ->
    main_step c0 (tok :: used ++ left) = Ok (os, left) -> main_step c0 (tok :: used ++ out) = Ok (os, out).
  Proof.
    intros Ht. unfold main_step. intros H. apply bind_Ok in H. destruct H as (((o & a) & ok) & H1 & H). cbn beta iota in H.
    destruct ok.
    - injection H as <- ->. now rewrite (try_swap _ _ _ _ _ out _ Ht (fun q Hq => Hq) H1).
    - apply try_false_left in H1; [|auto]. destruct H1 as (-> & -> & Hall). cbn in H. injection H as <- E.
      apply (f_equal (@List.length _)) in E. rewrite app_length in E. destruct used; [|cbn in E; lia].
      cbn [app]. rewrite (Hall out). reflexivity.
  Qed.

  Lemma response_loop fuel : forall args r1, main_loop fuel cp args = Ok r1 -> all_read content r1 ->
    exists out, expands content args out /\ exists g, main_loop g c0 out = Ok r1.
  Proof.
    induction fuel as [|fuel IH]; intros [|t rest] r1 H Hr; cbn [main_loop] in H; try discriminate;
      try (injection H as <-; exists []; split; [constructor|exists 0; reflexivity]).
    apply bind_Ok in H. destruct H as ((os & left) & Hs & H). cbn [fst snd] in H.
    apply bind_Ok in H. destruct H as (more & Hm & [= <-]). apply all_read_app in Hr. destruct Hr as [Ho Hr].
    destruct (IH _ _ Hm Hr) as (out & He & g & Hg).
    assert (Hword : forall x, content x = None -> main_step cp (x :: rest) = Ok (os, left) ->
      exists out', expands content (x :: rest) out' /\ exists g', main_loop g' c0 out' = Ok (os ++ more)).
    { intros x Hx Hst. apply step_word in Hst; [|exact Hx|exact Ho].
      destruct (step_plain_suffix _ _ _ _ Hst Ho) as (used & -> & Hu).
      exists (x :: used ++ out). split.
      - constructor; [exact Hx|]. now apply expands_app.
      - exists (S g). cbn [main_loop].
        assert (Hst' : main_step c0 (x :: used ++ out) = Ok (os, out)).
        { eapply step_swap; [|exact Hst]. intros El. rewrite El in He. now inversion He. }
        rewrite Hst'. cbn [bind fst snd]. rewrite Hg. reflexivity. }
    destruct (content t) as [words|] eqn:Et.
    - destruct (Nat.eq_dec (List.length words) 1) as [El|El].
      + destruct words as [|t' [|]]; try discriminate. pose proof (Hlinks t t' Et) as Et'.
        rewrite (step_link t t' rest Et) in Hs. destruct (Hword t' Et' Hs) as (out' & He' & Hg').
        exists out'. split; [|exact Hg']. eapply expands_file; [exact Et|exact He'].
      + rewrite (step_file t words rest Et El) in Hs. injection Hs as <- <-.
        exists out. split; [eapply expands_file; [exact Et|exact He]|]. exists g. exact Hg.
    - now apply Hword.
  Qed.
End Response.

Lemma expands_unique content args out : expands content args out -> forall out', expands content args out' -> out' = out.
Proof.
  induction 1 as [|t rest out Hc _ IH|t words rest out Hc _ IH]; intros out' H; inversion H; subst; try congruence.
  - f_equal. auto.
  - apply IH. congruence.
Qed.

Lemma response_run c content fuel args res : no_links content ->
  run fuel (with_user_parser c (response_reader content)) args = Ok res -> all_read content res ->
  exists out, expands content args out /\ parse (without_user_parser c) out = Ok res.
Proof.
  intros Hl H Hr. pose proof (passes_tokens _ _ _ _ H) as (r1 & H1 & Et).
  destruct (response_loop c content Hl fuel args r1 H1) as (out & He & g & Hg).
  { unfold all_read in *. now rewrite <- Et. }
  exists out. split; [exact He|].
  assert (Hg' : main_loop (List.length out) (without_user_parser c) out = Ok r1).
  { destruct (Nat.le_ge_cases g (List.length out)) as [Hle|Hle].
    - rewrite <- Hg. apply main_loop_more; [rewrite Hg; discriminate|exact Hle].
    - rewrite <- Hg. symmetry. apply main_loop_more; [|exact Hle]. apply main_loop_nofuel; [reflexivity|lia]. }
  unfold parse. unfold run in H |- *. rewrite H1 in H. rewrite Hg'. cbn [bind] in H |- *.
  rewrite <- (merge_cong (with_user_parser c (response_reader content)) (without_user_parser c)); auto.
Qed.

(** ** A style parser that swallows a token *)

Lemma swallowing_run c p name t rest d fuel :
  cl_additional c = None -> has (cl_style c) allow_long = true -> name <> [] -> ~ In c_eq name ->
  lookup c name = Ok (Some d) -> (1 <= vs_min (od_sem d) <= 1 + Z.of_nat (List.length rest))%Z ->
  p ((dashdash ++ name) :: t :: rest) = Ok ([], (dashdash ++ name) :: t :: rest) -> p [t] = Ok ([], []) ->
  run (S fuel) (with_user_parser c p) ((dashdash ++ name) :: t :: rest) = Undef UB_index.
Proof.
  intros Ha Hs Hn He Hl Hm Hp Ht. unfold run. cbn [main_loop]. unfold main_step.
  assert (Hps : exists ps, style_parsers (with_user_parser c p) = p :: parse_long_option (with_user_parser c p) :: ps).
  { unfold style_parsers. cbn [with_user_parser cl_style_parser cl_additional cl_style]. rewrite Ha, Hs. cbn [app]. eauto. }
  destruct Hps as (ps & ->). cbn [try_parsers]. rewrite Hp. cbn [bind finish_all]. rewrite Nat.eqb_refl.
  assert (Hlong : parse_long_option (with_user_parser c p) ((dashdash ++ name) :: t :: rest)
    = Ok ([mk_popt name (-1) [] [dashdash ++ name] false false], t :: rest)).
  { unfold parse_long_option. cbn [at_index nth_error bind dashdash app]. destruct name as [|x name]; [congruence|].
    change (char_eqb c_dash c_dash) with true. cbn [andb].
    assert (Hf : find_char c_eq (c_dash :: c_dash :: x :: name) = None).
    { apply find_char_None. intros [E|[E|E]]; [discriminate|discriminate|tauto]. }
    rewrite Hf. reflexivity. }
  rewrite Hlong. cbn [bind finish_all]. unfold finish_option at 1. cbn [po_key po_orig po_value].
  destruct name as [|x name]; [congruence|]. cbn [is_empty].
  change (lookup (with_user_parser c p)) with (lookup c). rewrite Hl. cbn [with_context bind List.length].
  destruct (Z.leb_spec (vs_min (od_sem d)) (Z.of_nat 0 + Z.of_nat (S (List.length rest)))) as [H1|H1]; [|lia].
  cbn [is_empty negb andb].
  destruct (Z.leb_spec (Z.of_nat 0) (vs_min (od_sem d))) as [H2|H2]; [|lia].
  cbn [grab_tokens]. destruct (Z.eqb_spec (vs_min (od_sem d) - Z.of_nat 0) 0) as [H3|H3]; [lia|].
  cbn [looks_like_option]. rewrite Ht. reflexivity.
Qed.
