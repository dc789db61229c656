(** The calls of the additional parser. *)

From Coq Require Import List Ascii String NArith ZArith Bool Arith Lia.
From Verif Require Import Base Errors Spec BaseFacts Values OptDesc SpecLookup LookupFacts Positional Cmdline
  SpecCmdline CmdlineFacts RunFacts ParseFacts CongruenceFacts SpecReject SpecGrammar GrammarFacts UserCode SpecUser.
Import ListNotations.

Section User.
Context {S : Type}.
Variables (c : cmdline) (f : user_parser S).
Hypothesis Hplain : plain c.

Definition pure {T} (p : style_parser) : ustyle_parser T := fun args => lift (p args).

Notation leaves := (passed_on c).

(** The history of a computation with the result [r]: an exception ends it, and the parser. *)
Inductive ends (L : exn -> exn -> Prop) {A} : history -> outcome A -> Prop :=
| en_answered h r : answered h -> ends L h r
| en_thrown h tok e e' : answered h -> L e e' -> ends L (h ++ [(tok, inr e)]) (Throw e').

Lemma calls_app s h s1 : calls f s h s1 -> forall h' s2, calls f s1 h' s2 -> calls f s (h ++ h') s2.
Proof. induction 1; intros; cbn [app]; auto. econstructor; eauto. Qed.

Lemma answered_app h h' : answered (h ++ h') <-> answered h /\ answered h'.
Proof. apply Forall_app. Qed.

Lemma ends_app L {A} h h' (r : outcome A) : answered h -> ends L h' r -> ends L (h ++ h') r.
Proof.
  intros H [h1 r1 H1|h1 tok e e' H1 H2].
  - apply en_answered. now apply answered_app.
  - rewrite app_assoc. apply en_thrown; auto. now apply answered_app.
Qed.

Lemma ends_ok L {A} h (a : A) : ends L h (Ok a) -> answered h.
Proof. intros H. remember (Ok a) as r eqn:E. destruct H as [h r H|h tok e r H K]; [auto|congruence]. Qed.

Lemma calls_split {T} (g : user_parser T) h : forall h' s s2, calls g s (h ++ h') s2 -> exists s1, calls g s h s1 /\ calls g s1 h' s2.
Proof.
  induction h as [|ta h IH]; intros h' s s2 H; [exists s; split; [constructor|exact H]|]. cbn [app] in H.
  remember (ta :: h ++ h') as l eqn:E. destruct H as [s|s tok s1 a h0 s2 Ef H]; [discriminate|]. injection E as <- ->.
  destruct (IH _ _ _ H) as (s3 & H1 & H2). exists s3. split; [econstructor; eauto|exact H2].
Qed.

Definition prefix (a b : list str) : Prop := exists l, b = a ++ l.

(** A part of the parser: what it asks the function, and that only the answers count. *)
Definition tracks (L : exn -> exn -> Prop) {A} (m : forall T, user_parser T -> st T A) (args : list str) (good : list str -> A -> Prop) : Prop :=
  forall s s' r, m S f s = (s', r) -> exists h,
    calls f s h s' /\ ends L h r /\ (forall T (g : user_parser T) t t', calls g t h t' -> m T g t = (t', r)) /\ prefix (asked h) args
    /\ forall a, r = Ok a -> good (asked h) a.

Lemma calls_nil {T} (g : user_parser T) t t' : calls g t [] t' -> t = t'.
Proof. intros H. remember [] as l eqn:E. destruct H; [reflexivity|discriminate]. Qed.

Lemma tracks_lift L {A} (x : outcome A) args (good : list str -> A -> Prop) : (forall a, x = Ok a -> good [] a) -> tracks L (fun T _ => lift x) args good.
Proof.
  intros H s s' r E. injection E as <- <-. exists []. split; [constructor|]. split; [apply en_answered; constructor|]. split; [intros T g t t' Hc; now rewrite (calls_nil _ _ _ Hc)|].
  split; [exists args; reflexivity|]. intros a E. now apply H.
Qed.

Lemma tracks_bind L {A B} (m : forall T, user_parser T -> st T A) (k : forall T, user_parser T -> A -> st T B) args good good' :
  tracks L m args good ->
  (forall a ts, good ts a -> exists args', args = ts ++ args' /\ tracks L (fun T g => k T g a) args' (fun ts' b => good' (ts ++ ts') b)) ->
  tracks L (fun T g => sbind (m T g) (k T g)) args good'.
Proof.
  intros Hm Hk s s' r E. unfold sbind in E. destruct (m S f s) as [s1 o] eqn:Em. destruct (Hm _ _ _ Em) as (h & Hc & He & Hg & Hp & Hgood).
  assert (Hfail : (forall a, o <> Ok a) -> ends L h (bind o (fun _ : A => @NoFuel B))).
  { intros Hno. clear - He Hno. destruct He as [h o H|h tok e o H K]; [now apply en_answered|]. now apply en_thrown. }
  destruct o as [a|e|u|].
  - destruct (Hk a _ (Hgood a eq_refl)) as (args' & -> & Hk'). destruct (Hk' _ _ _ E) as (h' & Hc' & He' & Hg' & Hp' & Hgood').
    exists (h ++ h'). split; [eapply calls_app; eauto|]. split; [apply ends_app; auto; eapply ends_ok; eauto|]. split.
    { intros T g t t' Ha. apply calls_split in Ha. destruct Ha as (t1 & H1 & H2). unfold sbind. rewrite (Hg _ _ _ _ H1). now apply Hg'. }
    unfold asked in *. rewrite map_app. split; [|exact Hgood']. destruct Hp' as [l ->]. exists l. now rewrite app_assoc.
  - injection E as <- <-. exists h. split; [auto|]. split; [apply Hfail; discriminate|]. split; [intros T g t t' Ha; unfold sbind; now rewrite (Hg _ _ _ _ Ha)|].
    split; [auto|discriminate].
  - injection E as <- <-. exists h. split; [auto|]. split; [apply Hfail; discriminate|]. split; [intros T g t t' Ha; unfold sbind; now rewrite (Hg _ _ _ _ Ha)|].
    split; [auto|discriminate].
  - injection E as <- <-. exists h. split; [auto|]. split; [apply Hfail; discriminate|]. split; [intros T g t t' Ha; unfold sbind; now rewrite (Hg _ _ _ _ Ha)|].
    split; [auto|discriminate].
Qed.

Lemma tracks_weaken L {A} (m : forall T, user_parser T -> st T A) args (good good' : list str -> A -> Prop) :
  tracks L m args good -> (forall ts a, good ts a -> good' ts a) -> tracks L m args good'.
Proof.
  intros H Hg s s' r E. destruct (H _ _ _ E) as (h & H1 & H2 & H3 & H4 & H5). exists h. split; [exact H1|]. split; [exact H2|]. split; [exact H3|]. split; [exact H4|]. intros a Ea. apply Hg, H5, Ea.
Qed.

Lemma tracks_same L {A} (m m' : forall T, user_parser T -> st T A) args good : (forall T (g : user_parser T) s, m T g s = m' T g s) -> tracks L m' args good -> tracks L m args good.
Proof.
  intros E H s s' r Hm. rewrite E in Hm. destruct (H _ _ _ Hm) as (h & H1 & H2 & H3 & H4 & H5). exists h. split; [auto|]. split; [auto|].
  split; [intros T g t t' Ha; rewrite E; now apply H3|auto].
Qed.

(** ** One token *)

Lemma tracks_ask tok rest : tracks eq (fun T g => ask g tok) (tok :: rest) (fun ts _ => ts = [tok]).
Proof.
  intros s s' r E. unfold ask in E. destruct (f s tok) as [s1 a] eqn:Ef. injection E as <- <-. exists [(tok, a)].
  split; [econstructor; [exact Ef|constructor]|]. split; [|split; [|split]].
  - destruct a as [p|e]; [apply en_answered; constructor; [cbn; eauto|constructor]|]. apply (en_thrown _ [] tok e); [constructor|reflexivity].
  - intros T g t t' H. remember [(tok, a)] as l eqn:El. destruct H as [t|t tok' t1 a' h t2 Eg H]; [discriminate|]. injection El as -> -> ->.
    apply calls_nil in H. subst t2. unfold ask. now rewrite Eg.
  - exists rest. reflexivity.
  - reflexivity.
Qed.

Lemma tracks_additional tok rest :
  tracks eq (fun T g => uhandle_additional_parser g (tok :: rest)) (tok :: rest)
    (fun ts r => ts = [tok] /\ (r = ([], tok :: rest) \/ exists o, r = ([o], rest))).
Proof.
  unfold uhandle_additional_parser. cbn [at_index nth_error].
  eapply tracks_bind with (good := fun ts t => ts = [] /\ t = tok) (k := fun T g t => _).
  { apply tracks_lift. intros a [= ->]. auto. }
  intros t ts [-> ->]. exists (tok :: rest). split; [reflexivity|].
  eapply tracks_bind with (k := fun T g p => _); [apply tracks_ask|]. intros p ts ->. exists rest. split; [reflexivity|].
  apply tracks_lift. cbn [app]. intros a H. split; [reflexivity|]. destruct (is_empty (fst p)); [injection H as <-; now left|].
  cbn [erase_front bind] in H. injection H as <-. right. eauto.
Qed.

Lemma ulooks_pure {T} ps : forall args (s : T), ulooks_like_option (map pure ps) args s = (s, looks_like_option ps args).
Proof.
  induction ps as [|p ps IH]; intros args s; [reflexivity|]. cbn [map ulooks_like_option looks_like_option]. unfold sbind, pure at 1, lift.
  destruct (p args) as [[fo nt]|e|u|]; try reflexivity. cbn [bind fst snd]. destruct (is_empty fo); [apply IH|reflexivity].
Qed.

Lemma tracks_looks tok rest :
  tracks eq (fun T g => ulooks_like_option (ustyle_parsers c g) [tok]) (tok :: rest) (fun ts _ => ts = [tok]).
Proof.
  unfold ustyle_parsers. cbn [ulooks_like_option].
  eapply tracks_bind with (good := fun ts _ => ts = [tok]) (k := fun T g r => _).
  - intros s s' r E. destruct (tracks_additional tok [] _ _ _ E) as (h & H1 & H2 & H3 & [l H4] & H5). exists h. split; [exact H1|]. split; [exact H2|]. split; [exact H3|]. split; [|intros a Ea; apply (H5 a Ea)].
    destruct (asked h) as [|a l']; [exists (tok :: rest); reflexivity|]. injection H4 as -> E4. symmetry in E4. apply app_eq_nil in E4. destruct E4 as [-> _]. exists rest. reflexivity.
  - intros r ts ->. exists rest. split; [reflexivity|]. destruct (is_empty (fst r)).
    + apply tracks_same with (m' := fun T g => lift (looks_like_option (style_parsers c) (snd r))); [intros T g s; apply ulooks_pure|]. now apply tracks_lift.
    + apply tracks_lift. auto.
Qed.

Lemma tracks_context {A} key tok (m : forall T, user_parser T -> st T A) args good : tracks eq m args good ->
  tracks leaves (fun T g => scontext key tok (cl_prefix c) (m T g)) args good.
Proof.
  intros H s s' r E. unfold scontext in E. destruct (m S f s) as [s1 o] eqn:Em. injection E as <- <-.
  destruct (H _ _ _ Em) as (h & H1 & H2 & H3 & H4 & H5). exists h. split; [auto|]. split; [|split; [|split]]; auto.
  - clear - H2. destruct H2 as [h o Ha|h t e e' Ha <-]; [now apply en_answered|]. apply en_thrown; auto. right. eauto.
  - intros T g t t' Ha. unfold scontext. now rewrite (H3 _ _ _ _ Ha).
  - intros a E. destruct o; try discriminate. now apply H5.
Qed.

Lemma tracks_raw {A} (m : forall T, user_parser T -> st T A) args good : tracks eq m args good -> tracks leaves m args good.
Proof.
  intros H s s' r E. destruct (H _ _ _ E) as (h & H1 & H2 & H3 & H4 & H5). exists h. split; [auto|]. split; [|auto].
  destruct H2 as [h o Ha|h t e e' Ha <-]; [now apply en_answered|]. apply en_thrown; auto. now left.
Qed.

(** ** The tokens an option takes *)

Lemma tracks_grab key : forall other te n opt,
  tracks leaves (fun T g => ugrab_tokens c (ustyle_parsers c g) key te n opt other) other (fun ts r => other = ts ++ snd r).
Proof.
  induction other as [|tok rest IH]; intros te n opt; cbn [ugrab_tokens].
  - apply tracks_lift. intros a [= <-]. reflexivity.
  - destruct (Z.eqb n 0); [apply tracks_lift; intros a [= <-]; reflexivity|].
    eapply tracks_bind with (k := fun T g followed => _); [apply tracks_context, (tracks_looks tok rest)|].
    intros b ts ->. exists rest. split; [reflexivity|].
    eapply tracks_bind with (good := fun ts _ => ts = []) (k := fun T g te' => _); [apply tracks_lift; reflexivity|].
    intros te' ts ->. exists rest. split; [reflexivity|].
    eapply tracks_weaken; [apply IH|]. cbn. intros ts r ->. reflexivity.
Qed.

Lemma tracks_finish o other :
  tracks leaves (fun T g => ufinish_option c (ustyle_parsers c g) o other) other (fun ts r => other = ts ++ snd r).
Proof.
  unfold ufinish_option. destruct (is_empty (po_key o)); [apply tracks_lift; intros a [= <-]; reflexivity|].
  eapply tracks_bind with (good := fun ts _ => ts = []) (k := fun T g xd => _); [apply tracks_lift; reflexivity|].
  intros [d|] ts ->; exists other; (split; [reflexivity|]); cbn [app].
  - destruct (Z.leb _ _); [|apply tracks_lift; discriminate]. destruct (_ && _); [apply tracks_lift; discriminate|]. apply tracks_grab.
  - destruct (cl_allow_unregistered c); apply tracks_lift; [intros a [= <-]; reflexivity|discriminate].
Qed.

Lemma tracks_finish_all os : os <> [] -> forall args,
  tracks leaves (fun T g => ufinish_all c (ustyle_parsers c g) os args) args (fun ts r => args = ts ++ snd r).
Proof.
  induction os as [|o os IH]; intros Hne args; [contradiction|]. cbn [ufinish_all]. destruct os as [|o2 os].
  - eapply tracks_bind with (k := fun T g r => _); [apply tracks_finish|]. intros r ts ->. exists (snd r). split; [reflexivity|].
    apply tracks_lift. intros a [= <-]. cbn [snd]. now rewrite app_nil_r.
  - assert (H0 : tracks leaves (fun T g => ufinish_option c (ustyle_parsers c g) o []) args (fun ts r => ts = [])).
    { intros s s' r E. destruct (tracks_finish o [] _ _ _ E) as (h & H1 & H2 & H3 & [l H4] & H5). exists h. split; [auto|]. split; [auto|]. split; [auto|].
      symmetry in H4. apply app_eq_nil in H4. destruct H4 as [-> _]. split; [exists args; reflexivity|auto]. }
    eapply tracks_bind with (k := fun T g r => _); [exact H0|]. intros r ts ->. exists args. split; [reflexivity|].
    eapply tracks_bind with (k := fun T g rs => _); [apply IH; discriminate|]. intros rs ts ->. exists (snd rs). split; [reflexivity|].
    apply tracks_lift. intros a [= <-]. cbn [snd app]. now rewrite app_nil_r.
Qed.

(** ** The style parsers *)

Definition step_good (tok : str) (rest ts : list str) (r : list popt * list str * bool) : Prop :=
  exists ts', ts = tok :: ts' /\
    ((snd r = true /\ rest = ts' ++ snd (fst r))
     \/ (snd r = true /\ ts' = [] /\ tok = dashdash /\ snd (fst r) = [])
     \/ (snd r = false /\ ts' = [] /\ snd (fst r) = tok :: rest)).

Lemma finish_nameless os : Forall (fun o => po_key o = []) os -> forall T (ps : list (ustyle_parser T)) args,
  forall s, ufinish_all c ps os args s = (s, Ok (os, args)).
Proof.
  induction 1 as [|o os Ho _ IH]; intros T ps args s; [reflexivity|].
  assert (E : forall a s, ufinish_option c ps o a s = (s, Ok (o, a))) by (intros a s'; unfold ufinish_option; rewrite Ho; reflexivity).
  destruct os as [|o2 os].
  - cbn [ufinish_all]; unfold sbind, lift; now rewrite E.
  - change (ufinish_all c ps (o :: o2 :: os) args) with (sbind (ufinish_option c ps o []) (fun r =>
        sbind (ufinish_all c ps (o2 :: os) args) (fun rs => lift (Ok (fst r :: fst rs, snd rs))))).
    unfold sbind at 1. rewrite E. unfold sbind. rewrite IH. reflexivity.
Qed.

Lemma tracks_known {A} (m : forall T, user_parser T -> st T A) args (good : list str -> A -> Prop) r :
  (forall T (g : user_parser T) s, m T g s = (s, r)) -> (forall a, r = Ok a -> good [] a) -> tracks leaves m args good.
Proof.
  intros Hm Hg. apply tracks_same with (m' := fun T _ => lift r); [exact Hm|]. now apply tracks_lift.
Qed.

Lemma tracks_try_pure L tok rest : readers L ->
  tracks leaves (fun T g => utry_parsers c (ustyle_parsers c g) (map pure (map fst L ++ [parse_terminator])) (tok :: rest)) rest
    (fun ts r => step_good tok rest (tok :: ts) r).
Proof.
  induction 1 as [|(p & R & N) L [Hp Hne] _ IH].
  - cbn [map app utry_parsers].
    destruct (str_eqb_spec tok $"--") as [->|Hn].
    + set (os := map (fun a => mk_popt [] INT_MAX [a] [a] false false) rest).
      assert (Hos : Forall (fun o => po_key o = []) os) by (apply Forall_forall; intros o Ho; apply in_map_iff in Ho; destruct Ho as (x & <- & _); reflexivity).
      apply tracks_known with (r := Ok (os, [], true)).
      * intros T g s. change (pure parse_terminator ($"--" :: rest)) with (@lift T _ (Ok (os, @nil str))). unfold sbind, lift. cbn [fst snd].
        rewrite (finish_nameless os Hos). reflexivity.
      * intros a [= <-]. exists []. split; [reflexivity|]. right. left. auto.
    + apply tracks_known with (r := Ok ([], tok :: rest, false)).
      * intros T g s. unfold pure, parse_terminator. cbn [at_index nth_error bind]. apply str_eqb_neq in Hn. rewrite Hn.
        unfold sbind, ufinish_all, lift. cbn [fst snd]. rewrite Nat.eqb_refl. reflexivity.
      * intros a [= <-]. exists []. split; [reflexivity|]. right. right. auto.
  - cbn [map app fst]. set (todo := map fst L ++ [parse_terminator]) in *. cbn [utry_parsers].
    destruct (p (tok :: rest)) as [r|e|u|] eqn:Er.
    2-4: eapply tracks_known; [intros T g s; unfold sbind, pure at 1, lift at 1; rewrite Er; reflexivity|discriminate].
    apply Hp in Er as Hr. destruct Hr as [(ms & Hm & ->)|[Hn ->]].
    + apply tracks_same with (m' := fun T g => sbind (ufinish_all c (ustyle_parsers c g) (map raw_of ms) rest) (fun f0 =>
        if Nat.eqb (List.length (snd f0)) (List.length (tok :: rest)) then
          sbind (utry_parsers c (ustyle_parsers c g) (map pure todo) (snd f0)) (fun r2 => lift (Ok (fst f0 ++ fst (fst r2), snd (fst r2), snd r2)))
        else lift (Ok (fst f0, snd f0, true)))).
      { intros T g s. unfold sbind at 1, pure at 1, lift at 1. rewrite Er. reflexivity. }
      eapply tracks_bind with (good := fun ts r => rest = ts ++ snd r) (k := fun T g r => _).
      * apply tracks_finish_all. pose proof (Hne _ _ Hm). destruct ms; [contradiction|discriminate].
      * intros [fin left] ts E. cbn [fst snd] in *. exists left. split; [exact E|].
        destruct (Nat.eqb_spec (List.length left) (List.length (tok :: rest))) as [El|_].
        { exfalso. rewrite E in El. cbn [List.length] in El. rewrite app_length in El. lia. }
        apply tracks_lift. intros a [= <-]. exists ts. rewrite app_nil_r. split; [reflexivity|]. left. auto.
    + apply tracks_same with (m' := fun T g => sbind (utry_parsers c (ustyle_parsers c g) (map pure todo) (tok :: rest)) (fun r2 => lift (Ok (fst (fst r2), snd (fst r2), snd r2)))).
      { intros T g s. unfold sbind at 1, pure at 1, lift at 1. rewrite Er. cbn [ufinish_all fst snd]. unfold sbind at 1, lift at 1. cbn [fst snd]. rewrite Nat.eqb_refl. reflexivity. }
      eapply tracks_bind with (k := fun T g r => _); [exact IH|]. intros [[a b] ok] ts Hg. cbn [fst snd]. destruct Hg as (ts' & [= ->] & Hg).
      assert (Hrest : exists l, rest = ts' ++ l).
      { destruct Hg as [[_ ->]|[(_ & -> & _)|(_ & -> & _)]]; [eauto|exists rest; reflexivity|exists rest; reflexivity]. }
      destruct Hrest as [l ->]. exists l. split; [reflexivity|]. apply tracks_lift. intros x [= <-]. rewrite app_nil_r. exists ts'. auto.
Qed.

Lemma tracks_try tok rest :
  tracks leaves (fun T g => utry_parsers c (ustyle_parsers c g) (ustyle_parsers c g) (tok :: rest)) (tok :: rest) (step_good tok rest).
Proof.
  destruct Hplain as [Hsp Had].
  assert (Hparts : style_parsers c = map fst (parts c) ++ [parse_terminator]) by now apply parts_parsers.
  apply tracks_same with (m' := fun T g => sbind (uhandle_additional_parser g (tok :: rest)) (fun r =>
      sbind (ufinish_all c (ustyle_parsers c g) (fst r) (snd r)) (fun f0 =>
      if Nat.eqb (List.length (snd f0)) (List.length (tok :: rest)) then
        sbind (utry_parsers c (ustyle_parsers c g) (map pure (style_parsers c)) (snd f0)) (fun r2 =>
        lift (Ok (fst f0 ++ fst (fst r2), snd (fst r2), snd r2)))
      else lift (Ok (fst f0, snd f0, true))))); [reflexivity|].
  eapply tracks_bind with (good := fun ts r => ts = [tok] /\ (r = ([], tok :: rest) \/ exists o, r = ([o], rest))) (k := fun T g r => _); [apply tracks_raw, tracks_additional|].
  intros r ts [-> Hr]. exists rest. split; [reflexivity|]. destruct Hr as [->|[o ->]]; cbn [fst snd].
  - apply tracks_same with (m' := fun T g => sbind (utry_parsers c (ustyle_parsers c g) (map pure (style_parsers c)) (tok :: rest)) (fun r2 => lift (Ok (fst (fst r2), snd (fst r2), snd r2)))).
    { intros T g s. cbn [ufinish_all]. unfold sbind at 1, lift at 1. cbn [fst snd]. rewrite Nat.eqb_refl. reflexivity. }
    rewrite Hparts. eapply tracks_bind with (k := fun T g r => _); [apply tracks_try_pure, parts_readers|]. intros [[a b] ok] ts Hg. cbn [fst snd]. destruct Hg as (ts' & [= ->] & Hg).
    assert (Hrest : exists l, rest = ts' ++ l).
    { destruct Hg as [[_ ->]|[(_ & -> & _)|(_ & -> & _)]]; [eauto|exists rest; reflexivity|exists rest; reflexivity]. }
    destruct Hrest as [l ->]. exists l. split; [reflexivity|]. apply tracks_lift. intros x [= <-]. rewrite app_nil_r. exists ts'. auto.
  - eapply tracks_bind with (good := fun ts r => rest = ts ++ snd r) (k := fun T g r => _); [now apply tracks_finish_all|].
    intros [fin left] ts E. cbn [fst snd] in *. exists left. split; [exact E|].
    destruct (Nat.eqb_spec (List.length left) (List.length (tok :: rest))) as [El|_].
    { exfalso. rewrite E in El. cbn [List.length] in El. rewrite app_length in El. lia. }
    apply tracks_lift. intros a [= <-]. exists ts. rewrite app_nil_r. split; [reflexivity|]. left. auto.
Qed.

Lemma tracks_step tok rest :
  tracks leaves (fun T g => umain_step c g (tok :: rest)) (tok :: rest)
    (fun ts r => (exists ts', ts = tok :: ts' /\ rest = ts' ++ snd r) \/ (ts = [tok] /\ tok = dashdash /\ snd r = [])).
Proof.
  unfold umain_step. eapply tracks_bind with (k := fun T g r => _); [apply tracks_try|].
  intros [[a b] ok] ts (ts' & -> & H). cbn [fst snd] in *.
  assert (Hrest : exists l, rest = ts' ++ l).
  { destruct H as [[_ ->]|[(_ & -> & _)|(_ & -> & _)]]; [eauto|exists rest; reflexivity|exists rest; reflexivity]. }
  destruct Hrest as [l Hl]. exists l. split; [now rewrite Hl|]. destruct H as [[-> E]|[(-> & -> & E & ->)|(-> & -> & ->)]].
  - apply tracks_lift. intros r [= <-]. left. cbn [snd]. rewrite app_nil_r. eauto.
  - apply tracks_lift. intros r [= <-]. right. auto.
  - apply tracks_lift. cbn [at_index nth_error bind erase_front]. intros r [= <-]. left. exists []. auto.
Qed.

(** The tokens passed to the function: all of them, or those up to a "--". *)
Definition loop_good (args ts : list str) : Prop :=
  ts = args \/ exists before rest, args = before ++ dashdash :: rest /\ ts = before ++ [dashdash].

Lemma tracks_loop : forall fuel args,
  tracks leaves (fun T g => umain_loop fuel c g args) args (fun ts _ => loop_good args ts).
Proof.
  induction fuel as [|fuel IH]; intros [|tok rest]; cbn [umain_loop].
  - apply tracks_lift. intros; now left.
  - apply tracks_lift. discriminate.
  - apply tracks_lift. intros; now left.
  - eapply tracks_bind with (k := fun T g r => _); [apply tracks_step|].
    intros [os l] ts H. cbn [fst snd] in *.
    assert (H' : exists l', tok :: rest = ts ++ l' /\ (l = l' \/ (ts = [tok] /\ tok = dashdash /\ l = []))).
    { destruct H as [(ts' & -> & ->)|(-> & -> & ->)]; [exists l; auto|exists rest; split; [reflexivity|auto]]. }
    destruct H' as (l' & E & H'). exists l'. split; [exact E|]. destruct H' as [<-|(-> & -> & ->)].
    + eapply tracks_bind with (k := fun T g os' => _); [apply IH|]. intros os' ts' Hg.
      assert (Hl : exists l2, l = ts' ++ l2).
      { destruct Hg as [->|(b & r & -> & ->)]; [exists []; now rewrite app_nil_r|exists r; now rewrite <- app_assoc]. }
      destruct Hl as [l2 Hl]. exists l2. split; [exact Hl|]. apply tracks_lift. intros _ _. rewrite app_nil_r, E.
      destruct Hg as [->|(b & r & -> & ->)]; [now left|]. right. exists (ts ++ b), r. now rewrite <- !app_assoc.
    + apply tracks_known with (r := Ok (os ++ [])).
      * intros T g s. destruct fuel; reflexivity.
      * intros _ _. right. exists [], rest. auto.
Qed.

Lemma tracks_run fuel args :
  tracks leaves (fun T g => urun fuel c g args) args (fun ts _ => loop_good args ts).
Proof.
  unfold urun. eapply tracks_bind with (k := fun T g r1 => _); [apply tracks_loop|].
  intros r1 ts Hg.
  assert (Hl : exists l2, args = ts ++ l2).
  { destruct Hg as [->|(b & r & -> & ->)]; [exists []; now rewrite app_nil_r|exists r; now rewrite <- app_assoc]. }
  destruct Hl as [l2 Hl]. exists l2. split; [exact Hl|].
  apply tracks_lift; intros; now rewrite app_nil_r.
Qed.
(** ** One iteration per token is enough *)

Definition ends_in_time {A} (m : st S A) : Prop := forall s, snd (m s) <> NoFuel.

Lemma time_lift {A} (x : outcome A) : x <> NoFuel -> ends_in_time (lift x).
Proof. intros H s. exact H. Qed.

Lemma time_bind {A B} (m : st S A) (k : A -> st S B) : ends_in_time m -> (forall s s' a, m s = (s', Ok a) -> ends_in_time (k a)) -> ends_in_time (sbind m k).
Proof.
  intros Hm Hk s. unfold sbind. specialize (Hm s). destruct (m s) as [s1 [a|e|u|]] eqn:E; cbn [snd] in *; try discriminate; [|congruence].
  apply (Hk _ _ _ E).
Qed.

Lemma time_context {A} n t z (m : st S A) : ends_in_time m -> ends_in_time (scontext n t z m).
Proof. intros H s. unfold scontext. specialize (H s). destruct (m s) as [s1 x]. cbn [snd] in *. now apply with_context_not_nofuel. Qed.

Lemma time_additional args : ends_in_time (uhandle_additional_parser f args).
Proof.
  apply time_bind; [apply time_lift, at_index_nofuel|]. intros _ _ tok _. apply time_bind.
  - intros s. unfold ask. destruct (f s tok) as [s1 [p|e]]; discriminate.
  - intros _ _ p _. apply time_lift. destruct (is_empty _); [discriminate|]. destruct args; discriminate.
Qed.

Lemma time_style p : In p (ustyle_parsers c f) -> forall args, ends_in_time (p args).
Proof.
  intros [<-|H] args; [apply time_additional|]. apply in_map_iff in H. destruct H as (q & <- & Hq). apply time_lift.
  eapply style_parser_nofuel; [apply Hplain|exact Hq].
Qed.

Lemma time_looks qs : (forall q, In q qs -> In q (ustyle_parsers c f)) -> forall args, ends_in_time (ulooks_like_option qs args).
Proof.
  induction qs as [|q qs IH]; intros Hin args; cbn [ulooks_like_option]; [now apply time_lift|].
  apply time_bind; [apply time_style, Hin; now left|]. intros _ _ r _. destruct (is_empty (fst r)); [apply IH; intros; apply Hin; now right|now apply time_lift].
Qed.

Lemma time_grab key : forall other te n opt, ends_in_time (ugrab_tokens c (ustyle_parsers c f) key te n opt other).
Proof.
  induction other as [|tok rest IH]; intros te n opt; cbn [ugrab_tokens]; [now apply time_lift|].
  destruct (Z.eqb n 0); [now apply time_lift|]. apply time_bind; [apply time_context, time_looks; auto|].
  intros _ _ fo _. apply time_bind; [|intros; apply IH]. apply time_lift. destruct fo; [|discriminate].
  apply bind_not_nofuel; [apply with_context_not_nofuel, lookup_nofuel|]. intros [d|] _; discriminate.
Qed.

Lemma time_finish o other : ends_in_time (ufinish_option c (ustyle_parsers c f) o other).
Proof.
  unfold ufinish_option. destruct (is_empty (po_key o)); [now apply time_lift|].
  apply time_bind; [apply time_lift, with_context_not_nofuel, lookup_nofuel|]. intros _ _ [d|] _.
  - destruct (Z.leb _ _); [|now apply time_lift]. destruct (_ && _); [now apply time_lift|]. apply time_grab.
  - destruct (cl_allow_unregistered c); now apply time_lift.
Qed.

Lemma time_finish_all os : forall args, ends_in_time (ufinish_all c (ustyle_parsers c f) os args).
Proof.
  induction os as [|o os IH]; intros args; [now apply time_lift|]. cbn [ufinish_all]. destruct os as [|o2 os].
  - apply time_bind; [apply time_finish|]. intros; now apply time_lift.
  - apply time_bind; [apply time_finish|]. intros _ _ r _. apply time_bind; [apply IH|]. intros; now apply time_lift.
Qed.

Lemma time_try todo : (forall q, In q todo -> In q (ustyle_parsers c f)) -> forall args, ends_in_time (utry_parsers c (ustyle_parsers c f) todo args).
Proof.
  induction todo as [|p todo IH]; intros Hin args; cbn [utry_parsers]; [now apply time_lift|].
  apply time_bind; [apply time_style, Hin; now left|]. intros _ _ r _. apply time_bind; [apply time_finish_all|]. intros _ _ r2 _.
  destruct (Nat.eqb _ _); [|now apply time_lift]. apply time_bind; [apply IH; intros; apply Hin; now right|]. intros; now apply time_lift.
Qed.

Lemma time_step args : ends_in_time (umain_step c f args).
Proof.
  apply time_bind; [apply time_try; auto|]. intros _ _ r _. destruct (snd r); [now apply time_lift|]. apply time_lift.
  apply bind_not_nofuel; [apply at_index_nofuel|]. intros tok _. destruct (snd (fst r)); discriminate.
Qed.

Lemma time_loop : forall fuel args, List.length args <= fuel -> ends_in_time (umain_loop fuel c f args).
Proof.
  induction fuel as [|fuel IH]; intros [|tok rest] Hl; cbn [umain_loop]; try now apply time_lift.
  apply time_bind; [apply time_step|]. intros s s' r E. destruct (tracks_step tok rest _ _ _ E) as (h & Hc & _ & _ & _ & Hg).
    apply time_bind; [|intros; now apply time_lift]. apply IH. cbn [List.length] in Hl. destruct (Hg r eq_refl) as [(ts' & _ & Hr)|(_ & _ & ->)]; [|cbn; lia].
    rewrite Hr, app_length in Hl. lia.
Qed.

Lemma time_run args : ends_in_time (urun (List.length args) c f args).
Proof.
  apply time_bind; [now apply time_loop|]. intros _ _ r1 _. apply time_lift.
  apply bind_not_nofuel; [apply merge_nofuel; auto|]. intros r2 _. apply bind_not_nofuel; [|discriminate].
  destruct (cl_positional c); [apply name_positionals_nofuel|discriminate].
Qed.
End User.

(** ** A function without state *)

Section Stateless.
Variables (c : cmdline) (g : str -> str * str).
Hypothesis Hplain : plain c.

Definition same {A} (m : st unit A) (x : outcome A) : Prop := forall s, m s = (s, x).

Lemma same_lift {A} (x : outcome A) : same (lift x) x.
Proof. intros s. reflexivity. Qed.

Lemma same_bind {A B} (m : st unit A) (k : A -> st unit B) x y : same m x -> (forall a, same (k a) (y a)) -> same (sbind m k) (bind x y).
Proof. intros Hm Hk s. unfold sbind. rewrite Hm. destruct x; try reflexivity. apply Hk. Qed.

Lemma same_context {A} n t z (m : st unit A) x : same m x -> same (scontext n t z m) (with_context n t z x).
Proof. intros H s. unfold scontext. now rewrite H. Qed.

Lemma same_ext {A} (m : st unit A) x y : same m x -> x = y -> same m y.
Proof. now intros H <-. Qed.

Definition gparsers : list style_parser := handle_additional_parser g :: style_parsers c.

Lemma same_parsers : Forall2 (fun (u : ustyle_parser unit) (p : style_parser) => forall args, same (u args) (p args)) (ustyle_parsers c (stateless g)) gparsers.
Proof.
  constructor.
  - intros args s. unfold uhandle_additional_parser, handle_additional_parser, sbind, lift, ask, stateless.
    destruct (at_index args 0) as [tok| | |]; try reflexivity. cbn [bind]. destruct (g tok). reflexivity.
  - induction (style_parsers c) as [|p l IH]; constructor; auto. intros args s. reflexivity.
Qed.

Lemma same_looks us ps : Forall2 (fun (u : ustyle_parser unit) (p : style_parser) => forall args, same (u args) (p args)) us ps ->
  forall args, same (ulooks_like_option us args) (looks_like_option ps args).
Proof.
  induction 1 as [|u p us ps Hu H IH]; intros args; cbn [ulooks_like_option looks_like_option]; [apply same_lift|].
  apply same_bind; [apply Hu|]. intros [a b]. cbn [fst snd]. destruct (is_empty a); [apply IH|apply same_lift].
Qed.

Lemma same_grab key : forall other te n opt,
  same (ugrab_tokens c (ustyle_parsers c (stateless g)) key te n opt other) (grab_tokens c gparsers key te n opt other).
Proof.
  induction other as [|tok rest IH]; intros te n opt; cbn [ugrab_tokens grab_tokens]; [apply same_lift|].
  destruct (Z.eqb n 0); [apply same_lift|]. apply same_bind; [apply same_context, same_looks, same_parsers|]. intros fo.
  apply same_bind; [apply same_lift|]. intros te'. apply IH.
Qed.

Lemma same_finish o other : same (ufinish_option c (ustyle_parsers c (stateless g)) o other) (finish_option c gparsers o other).
Proof.
  unfold ufinish_option, finish_option. destruct (is_empty (po_key o)); [apply same_lift|].
  apply same_bind; [apply same_lift|]. intros [d|].
  - destruct (Z.leb _ _); [|apply same_lift]. destruct (_ && _); [apply same_lift|]. apply same_grab.
  - destruct (cl_allow_unregistered c); apply same_lift.
Qed.

Lemma same_finish_all os : forall args, same (ufinish_all c (ustyle_parsers c (stateless g)) os args) (finish_all c gparsers os args).
Proof.
  induction os as [|o os IH]; intros args; cbn [ufinish_all finish_all]; [apply same_lift|]. destruct os as [|o2 os].
  - apply same_bind; [apply same_finish|]. intros; apply same_lift.
  - apply same_bind; [apply same_finish|]. intros r. apply same_bind; [apply IH|]. intros; apply same_lift.
Qed.

Lemma same_try us ps : Forall2 (fun (u : ustyle_parser unit) (p : style_parser) => forall args, same (u args) (p args)) us ps ->
  forall args, same (utry_parsers c (ustyle_parsers c (stateless g)) us args) (try_parsers c gparsers ps args).
Proof.
  induction 1 as [|u p us ps Hu H IH]; intros args; cbn [utry_parsers try_parsers]; [apply same_lift|].
  apply same_bind; [apply Hu|]. intros [a b]. cbn [fst snd]. apply same_bind; [apply same_finish_all|]. intros [a' b']. cbn [fst snd].
  destruct (Nat.eqb _ _); [|apply same_lift]. apply same_bind; [apply IH|]. intros [[x y] z]. apply same_lift.
Qed.

Lemma gparsers_same : Forall2 (fun p q : style_parser => forall a, p a = q a) (gparsers) (style_parsers (with_parser c g)).
Proof.
  destruct Hplain as [Hsp Had].
  assert (Hs : forall z, same_but_adjacency z z) by (intros z k _ _; reflexivity).
  unfold gparsers, style_parsers. rewrite Hsp, Had. cbn [with_parser cl_style_parser cl_additional app].
  change (cl_style (with_parser c g)) with (cl_style c). constructor; [reflexivity|].
  repeat apply Forall2_app.
  - destruct (has (cl_style c) allow_long); [|constructor]. constructor; [intros ?; reflexivity|constructor].
  - destruct (has (cl_style c) allow_long_disguise); [|constructor]. constructor; [intros ?; reflexivity|constructor].
  - destruct (has (cl_style c) allow_short && has (cl_style c) allow_dash_for_short); [|constructor].
    constructor; [|constructor]. intros args0. unfold parse_short_option.
    destruct (at_index args0 0) as [tok| | |]; try reflexivity. cbn [bind].
    destruct tok as [|x [|y z]]; try reflexivity. destruct (_ && _); [|reflexivity].
    rewrite (adj_short_loop c (with_parser c g)); [reflexivity|apply Hs|reflexivity].
  - destruct (has (cl_style c) allow_short && has (cl_style c) allow_slash_for_short); [|constructor].
    constructor; [intros ?; reflexivity|constructor].
  - repeat constructor.
Qed.

Lemma step_same args : main_step (with_parser c g) args =
  (let* r := try_parsers c (gparsers) (gparsers) args in
   if snd r then Ok (fst (fst r), snd (fst r))
   else let* tok := at_index (snd (fst r)) 0 in
        let* rest := erase_front (snd (fst r)) in
        Ok (fst (fst r) ++ [mk_popt [] (-1) [tok] [tok] false false], rest)).
Proof.
  unfold main_step. rewrite (try_parsers_cong c (with_parser c g) eq_refl (fun _ => eq_refl) eq_refl
    (gparsers) (style_parsers (with_parser c g)) (gparsers) (style_parsers (with_parser c g))).
  - destruct (try_parsers _ _ _ _) as [[[a b] ok]| | |]; reflexivity.
  - intros tok. apply looks_like_cong. apply gparsers_same.
  - apply gparsers_same.
Qed.


Lemma same_step args : same (umain_step c (stateless g) args) (main_step (with_parser c g) args).
Proof.
  rewrite step_same. apply same_bind; [apply same_try, same_parsers|]. intros [[a b] ok]. cbn [fst snd]. destruct ok; apply same_lift.
Qed.

Lemma same_loop : forall fuel args, same (umain_loop fuel c (stateless g) args) (main_loop fuel (with_parser c g) args).
Proof.
  induction fuel as [|fuel IH]; intros [|tok rest]; cbn [umain_loop main_loop]; try apply same_lift.
  apply same_bind; [apply same_step|]. intros r. apply same_bind; [apply IH|]. intros; apply same_lift.
Qed.

Lemma same_run fuel args : same (urun fuel c (stateless g) args) (run fuel (with_parser c g) args).
Proof.
  unfold urun, run. apply same_bind; [apply same_loop|]. intros r1. eapply same_ext; [apply same_lift|].
  now rewrite (merge_cong c (with_parser c g)).
Qed.
End Stateless.

Lemma answers_calls g h : answers_of g h -> calls (stateless g) tt h tt.
Proof.
  induction h as [|(tok & a) h IH]; intros H; [constructor|]. inversion H as [|? ? Ea Hh]; subst. cbn [fst snd] in Ea. subst a.
  econstructor; [reflexivity|auto].
Qed.
