(** Proofs for C116. *)

From Coq Require Import List Ascii String NArith ZArith Bool Arith Lia.
From Verif Require Import Base BaseFacts Errors Spec Values OptDesc Owners SpecOwners.
Import ListNotations.

Lemma mem_In s l : existsb (Nat.eqb s) l = true <-> In s l.
Proof.
  rewrite existsb_exists. split; [intros (x & H & E); apply Nat.eqb_eq in E; now subst|].
  intros H. exists s. split; [exact H|apply Nat.eqb_refl].
Qed.

Lemma held_spec hs g : held hs g = true <-> exists h l name, nth_error hs h = Some (Some l) /\ In (name, g) l.
Proof.
  unfold held. rewrite existsb_exists. split.
  - intros ([l|] & Hin & H); [|discriminate]. apply existsb_exists in H. destruct H as ((k & g') & Hl & E). apply Nat.eqb_eq in E.
    cbn [snd] in E. subst g'. apply In_nth_error in Hin. destruct Hin as (h & Hh). eauto.
  - intros (h & l & k & Hh & Hl). exists (Some l). split; [now apply nth_error_In in Hh|]. apply existsb_exists.
    exists (k, g). split; [exact Hl|apply Nat.eqb_refl].
Qed.

Lemma refers_held w g : refers w g <-> held (ow_holders w) g = true.
Proof. unfold refers. now rewrite held_spec. Qed.

Lemma delete_spec : forall ss gone gone', delete_all gone ss = Ok gone' <->
  gone' = rev ss ++ gone /\ NoDup ss /\ (forall s, In s ss -> ~ In s gone).
Proof.
  induction ss as [|s ss IH]; intros gone gone'; cbn [delete_all rev].
  - split; [intros [= <-]; repeat split; [constructor|intros s []]|]. now intros (-> & _).
  - destruct (existsb (Nat.eqb s) gone) eqn:E.
    + apply mem_In in E. split; [discriminate|]. intros (_ & _ & H). exfalso. apply (H s); [now left|exact E].
    + assert (Hn : ~ In s gone) by (rewrite <- mem_In; congruence). rewrite IH, <- app_assoc. cbn [app].
      split; intros (-> & H1 & H2); (split; [reflexivity|]).
      * split.
        -- constructor; [|exact H1]. intros H. apply (H2 _ H). now left.
        -- intros t [<-|Ht]; [exact Hn|]. intros H. apply (H2 _ Ht). now right.
      * inversion H1; subst. split; [assumption|]. intros t Ht [<-|H]; [contradiction|]. apply (H2 t); [now right|exact H].
Qed.

Lemma delete_outcome : forall ss gone, (exists g, delete_all gone ss = Ok g) \/ delete_all gone ss = Undef UB_dangling.
Proof. induction ss as [|s ss IH]; intros gone; cbn; [eauto|]. destruct (existsb _ _); auto. Qed.

Lemma released_In before now n g : In g (released before now n) <-> g < n /\ held before g = true /\ held now g = false.
Proof. unfold released. rewrite filter_In, in_seq, andb_true_iff, negb_true_iff. intuition lia. Qed.

Lemma NoDup_map_eq {A B} (f : A -> B) l : NoDup (map f l) -> forall x y, In x l -> In y l -> f x = f y -> x = y.
Proof.
  induction l as [|a l IH]; cbn; intros H x y Hx Hy E; [contradiction|]. inversion H; subst.
  destruct Hx as [->|Hx], Hy as [->|Hy]; auto.
  - exfalso. rewrite E in *. auto using in_map.
  - exfalso. rewrite <- E in *. auto using in_map.
Qed.

Lemma NoDup_map_back {A B} (f : A -> B) l : NoDup l -> (forall x y, In x l -> In y l -> f x = f y -> x = y) -> NoDup (map f l).
Proof.
  induction 1 as [|a l Ha H IH]; intros E; cbn; constructor.
  - rewrite in_map_iff. intros (x & Ex & Hx). assert (x = a) by (apply E; [now right|now left|exact Ex]). subst. contradiction.
  - apply IH. intros; apply E; try right; assumption.
Qed.

Lemma owns_nth w g s : owns w g s -> nth g (ow_groups w) 0 = s.
Proof. unfold owns. intros H. now apply nth_error_nth. Qed.

Lemma owns_lt w g s : owns w g s -> g < List.length (ow_groups w).
Proof. unfold owns. intros H. apply nth_error_Some. congruence. Qed.

(** Cells *)
Lemma set_holder_get : forall hs h x i, nth_error (set_holder hs h x) i = if Nat.eqb i h then (if Nat.ltb h (List.length hs) then Some x else None) else nth_error hs i.
Proof.
  induction hs as [|y hs IH]; intros [|h] x [|i]; cbn; auto.
  - now destruct (Nat.eqb i h).
  - rewrite IH. reflexivity.
Qed.

Lemma held_set hs h l0 l : nth_error hs h = Some (Some l0) -> forall g,
  (forall k, In (k, g) l -> held hs g = true) -> held (set_holder hs h (Some l)) g = true -> held hs g = true.
Proof.
  intros Hh g Hl H. apply held_spec in H. destruct H as (i & l' & k & Hi & Hin). rewrite set_holder_get in Hi.
  destruct (Nat.eqb i h).
  - destruct (Nat.ltb h _); [|discriminate]. injection Hi as <-. eauto.
  - apply held_spec. eauto.
Qed.

Lemma held_unset hs h g : held (set_holder hs h None) g = true -> held hs g = true.
Proof.
  intros H. apply held_spec in H. destruct H as (i & l' & k & Hi & Hin). rewrite set_holder_get in Hi.
  destruct (Nat.eqb i h); [destruct (Nat.ltb h _); discriminate|]. apply held_spec. eauto.
Qed.

Lemma held_app hs l g : held (hs ++ [Some l]) g = true <-> held hs g = true \/ exists k, In (k, g) l.
Proof.
  unfold held. rewrite existsb_app, orb_true_iff. cbn [existsb]. rewrite orb_false_r.
  rewrite (existsb_exists (fun x : str * nat => Nat.eqb (snd x) g) l).
  split; (intros [H|H]; [now left|right]).
  - destruct H as ((k & g') & Hl & E). apply Nat.eqb_eq in E. cbn in E. subst. eauto.
  - destruct H as (k & H). exists (k, g). split; [exact H|apply Nat.eqb_refl].
Qed.

(** What every step does: groups and made grow, and the holders are the old ones with fewer groups, or a new group. *)
Inductive moved (w : owners) : own_call -> outcome owners -> Prop :=
| mv_new : moved w ONew (Ok (mk_ow (ow_gone w) (S (ow_made w)) (ow_groups w) (ow_holders w)))
| mv_touch c s : (c = OSet s \/ exists g, refers w g /\ nth g (ow_groups w) 0 = s /\ (forall t, c <> OSet t) /\ (forall t, c <> ODelete t)
      /\ (forall h n t, c <> ODeclare h n t)) -> In s (ow_gone w) -> moved w c (Undef UB_dangling)
| mv_same c : (forall h n t, c <> ODeclare h n t) -> (forall s, c <> ODelete s) -> moved w c (Ok w)
| mv_null c : moved w c (Undef UB_null)
| mv_forever c : moved w c NoFuel
| mv_delete s : ~ In s (ow_gone w) -> moved w (ODelete s) (Ok (mk_ow (s :: ow_gone w) (ow_made w) (ow_groups w) (ow_holders w)))
| mv_delete_bad s : In s (ow_gone w) -> moved w (ODelete s) (Undef UB_dangling)
| mv_holder : moved w OHolder (Ok (mk_ow (ow_gone w) (ow_made w) (ow_groups w) (ow_holders w ++ [Some []])))
| mv_declare h n s l : s < ow_made w -> ~ In s (ow_gone w) -> nth_error (ow_holders w) h = Some (Some l) ->
    moved w (ODeclare h n s) (Ok (mk_ow (ow_gone w) (ow_made w) (ow_groups w ++ [s])
      (set_holder (ow_holders w) h (Some (l ++ [(n, List.length (ow_groups w))])))))
| mv_declare_bad h n s : In s (ow_gone w) -> moved w (ODeclare h n s) (Undef UB_dangling)
| mv_rehold c hs : (forall h n t, c <> ODeclare h n t) -> (forall s, c <> ODelete s) ->
    (forall g, held hs g = true -> held (ow_holders w) g = true) -> moved w c (rehold w hs).

Lemma touch_cases w s : (touch w s = Undef UB_null) \/ (touch w s = Undef UB_dangling /\ In s (ow_gone w)) \/ (touch w s = Ok tt /\ ~ In s (ow_gone w) /\ s < ow_made w).
Proof.
  unfold touch. destruct (Nat.ltb s (ow_made w)) eqn:L; [|auto]. apply Nat.ltb_lt in L. destruct (existsb (Nat.eqb s) (ow_gone w)) eqn:E.
  - right. left. split; [reflexivity|now apply mem_In].
  - right. right. split; [reflexivity|]. split; [|exact L]. rewrite <- mem_In. congruence.
Qed.

Lemma refs_cases w h : refs_of w h = Undef UB_null \/ exists l, refs_of w h = Ok l /\ nth_error (ow_holders w) h = Some (Some l).
Proof. unfold refs_of. destruct (nth_error (ow_holders w) h) as [[l|]|]; eauto. Qed.

Lemma group_cases l name : group_of l name = Undef UB_null \/ exists g k, group_of l name = Ok g /\ In (k, g) l.
Proof.
  induction l as [|(k & g) l IH]; cbn; [auto|]. destruct (str_eqb k name); [right; exists g, k; auto|].
  destruct IH as [E|(g' & k' & E & H)]; [auto|]. right. exists g', k'. auto.
Qed.

Ltac refs w h l H := destruct (refs_cases w h) as [E|(l & E & H)]; rewrite E; cbn [bind]; [apply mv_null|clear E].

Lemma step_moved w c : moved w c (own_step w c).
Proof.
  destruct c as [ |s|s| |h name s|h|h k|m h name|h name|m name|m|h]; cbn [own_step].
  - constructor.
  - destruct (touch_cases w s) as [E|[(E & H)|(E & H & Hlt)]]; rewrite E; cbn [bind]; [apply mv_null| |apply mv_same; discriminate].
    eapply mv_touch; [left; reflexivity|exact H].
  - destruct (touch_cases w s) as [E|[(E & H)|(E & H & Hlt)]]; rewrite E; cbn [bind];
      [apply mv_null|now apply mv_delete_bad|now apply mv_delete].
  - constructor.
  - destruct (touch_cases w s) as [E|[(E & H)|(E & H & Hlt)]]; rewrite E; cbn [bind]; [apply mv_null|now apply mv_declare_bad|]. clear E.
    refs w h l Hh. now apply mv_declare.
  - refs w h l Hh. apply mv_rehold; try discriminate. intros g Hg. apply held_app in Hg. destruct Hg as [Hg|(k & Hk)]; [exact Hg|].
    apply held_spec. eauto.
  - refs w h l Hh. refs w k l' Hk. destruct (Nat.eqb h k && negb (is_empty l));
      [apply mv_forever|]. apply mv_rehold; try discriminate. intros g Hg. apply (held_set _ _ _ _ Hh g) in Hg; [exact Hg|]. intros n Hn.
    apply held_spec. apply in_app_or in Hn. destruct Hn; eauto.
  - refs w h l Hh. destruct (group_cases l name) as [E|(g & k & E & Hg)]; rewrite E; cbn [bind]; [apply mv_null|clear E].
    assert (Hr : refers w g) by (exists h, l, k; auto).
    destruct (touch_cases w (nth g (ow_groups w) 0)) as [E|[(E & H)|(E & H & Hlt)]]; rewrite E; cbn [bind]; [apply mv_null| |].
    + eapply mv_touch; [right; exists g; repeat split; try exact Hr; discriminate|exact H].
    + clear E. refs w m e He. apply mv_rehold; try discriminate. intros g' Hg'. apply (held_set _ _ _ _ He g') in Hg'; [exact Hg'|]. intros n Hn.
      apply in_app_or in Hn. destruct Hn as [Hn|[[= <- <-]|[]]].
      * apply filter_In in Hn. apply held_spec. destruct Hn. eauto.
      * apply held_spec. eauto.
  - refs w h l Hh. destruct (group_cases l name) as [E|(g & k & E & Hg)]; rewrite E; cbn [bind]; [apply mv_null|clear E].
    assert (Hr : refers w g) by (exists h, l, k; auto).
    destruct (touch_cases w (nth g (ow_groups w) 0)) as [E|[(E & H)|(E & H & Hlt)]]; rewrite E; cbn [bind]; [apply mv_null| |apply mv_same; discriminate].
    eapply mv_touch; [right; exists g; repeat split; try exact Hr; discriminate|exact H].
  - refs w m l Hm. apply mv_rehold; try discriminate. intros g Hg. apply (held_set _ _ _ _ Hm g) in Hg; [exact Hg|]. intros n Hn. apply filter_In in Hn.
    apply held_spec. destruct Hn. eauto.
  - refs w m l Hm. apply mv_rehold; try discriminate. intros g Hg. apply (held_set _ _ _ _ Hm g) in Hg; [exact Hg|]. intros n [].
  - refs w h l Hh. apply mv_rehold; try discriminate. intros g Hg. eapply held_unset; eauto.
Qed.

(** The invariant of all programs *)
Record sound (w : owners) : Prop := {
  so_lt : forall g, refers w g -> g < List.length (ow_groups w);
  so_made : forall s, In s (ow_groups w) -> s < ow_made w;
  so_gone : forall g s, owns w g s -> ~ refers w g -> deleted w s;
  so_two : forall g1 g2 s, owns w g1 s -> owns w g2 s -> g1 <> g2 -> refers w g1 \/ refers w g2 }.

Lemma rehold_Ok w hs w' : rehold w hs = Ok w' ->
  let ss := map (fun g => nth g (ow_groups w) 0) (released (ow_holders w) hs (List.length (ow_groups w))) in
  w' = mk_ow (rev ss ++ ow_gone w) (ow_made w) (ow_groups w) hs /\ NoDup ss /\ forall s, In s ss -> ~ In s (ow_gone w).
Proof.
  unfold rehold. intros H. apply bind_Ok in H. destruct H as (gone & H & E). apply delete_spec in H. destruct H as (-> & H).
  injection E as <-. split; [reflexivity|exact H].
Qed.

Lemma sound_rehold w hs w' : sound w -> (forall g, held hs g = true -> held (ow_holders w) g = true) -> rehold w hs = Ok w' -> sound w'.
Proof.
  intros [H1 HM H2 H3] Hs E. apply rehold_Ok in E. cbv zeta in E. destruct E as (-> & Hd & Hn). split.
  - intros g Hg. apply refers_held in Hg. cbn in *. apply H1, refers_held, Hs, Hg.
  - exact HM.
  - intros g s Ho Hr. unfold deleted. cbn [ow_gone]. apply in_or_app. rewrite refers_held in Hr. cbn [ow_holders] in Hr.
    assert (Ho' : owns w g s) by exact Ho. destruct (held (ow_holders w) g) eqn:E.
    + left. rewrite <- in_rev. apply in_map_iff. exists g. split; [now apply owns_nth|]. apply released_In.
      split; [eapply owns_lt; eauto|]. split; [exact E|]. destruct (held hs g); congruence.
    + right. apply (H2 g s Ho'). rewrite refers_held. congruence.
  - intros g1 g2 s Ho1 Ho2 Hne. rewrite !refers_held. cbn [ow_holders].
    destruct (held hs g1) eqn:E1; [now left|]. destruct (held hs g2) eqn:E2; [now right|]. exfalso.
    assert (O1 : owns w g1 s) by exact Ho1. assert (O2 : owns w g2 s) by exact Ho2.
    assert (R : forall g, owns w g s -> held hs g = false -> held (ow_holders w) g = true ->
       In g (released (ow_holders w) hs (List.length (ow_groups w)))).
    { intros g Ho Hh Hb. apply released_In. split; [eapply owns_lt; eauto|auto]. }
    assert (G : forall g, owns w g s -> held (ow_holders w) g = false -> In s (ow_gone w)).
    { intros g Ho Hb. apply (H2 g s Ho). rewrite refers_held. congruence. }
    assert (N : forall g, In g (released (ow_holders w) hs (List.length (ow_groups w))) -> owns w g s -> ~ In s (ow_gone w)).
    { intros g Hg Ho. apply Hn. apply in_map_iff. exists g. split; [now apply owns_nth|exact Hg]. }
    destruct (held (ow_holders w) g1) eqn:B1, (held (ow_holders w) g2) eqn:B2.
    + apply Hne. eapply (NoDup_map_eq _ _ Hd); eauto. cbn. now rewrite (owns_nth _ _ _ O1), (owns_nth _ _ _ O2).
    + exact (N g1 (R g1 O1 E1 B1) O1 (G g2 O2 B2)).
    + exact (N g2 (R g2 O2 E2 B2) O2 (G g1 O1 B1)).
    + destruct (H3 g1 g2 s O1 O2 Hne) as [H|H]; apply refers_held in H; congruence.
Qed.

Lemma owns_app w s g t gone made hs : owns (mk_ow gone made (ow_groups w ++ [s]) hs) g t ->
  owns w g t \/ (g = List.length (ow_groups w) /\ t = s).
Proof.
  unfold owns. cbn. intros H. destruct (Nat.lt_ge_cases g (List.length (ow_groups w))) as [L|L].
  - rewrite nth_error_app1 in H by exact L. now left.
  - rewrite nth_error_app2 in H by exact L. destruct (g - List.length (ow_groups w)) as [|n] eqn:E; cbn in H.
    + injection H as <-. right. split; [lia|reflexivity].
    + destruct n; discriminate.
Qed.

(** After a declaration *)
Lemma held_declare hs h l n g0 g : nth_error hs h = Some (Some l) ->
  held (set_holder hs h (Some (l ++ [(n, g0)]))) g = true <-> held hs g = true \/ g = g0.
Proof.
  intros Hh. assert (Hlt : h < List.length hs) by (apply nth_error_Some; congruence). split.
  - intros H. apply held_spec in H. destruct H as (i & l' & k & Hi & Hin). rewrite set_holder_get in Hi.
    destruct (Nat.eqb i h).
    + destruct (Nat.ltb h _); [|discriminate]. injection Hi as <-. apply in_app_or in Hin.
      destruct Hin as [Hin|[[= <- <-]|[]]]; [left; apply held_spec; eauto|now right].
    + left. apply held_spec. eauto.
  - intros [H|H]; apply held_spec.
    + apply held_spec in H. destruct H as (i & l' & k & Hi & Hin). destruct (Nat.eqb i h) eqn:E.
      * apply Nat.eqb_eq in E. subst i. rewrite Hh in Hi. injection Hi as <-. exists h, (l ++ [(n, g0)]), k.
        rewrite set_holder_get, Nat.eqb_refl. apply Nat.ltb_lt in Hlt. rewrite Hlt. split; [reflexivity|]. apply in_or_app. now left.
      * exists i, l', k. rewrite set_holder_get, E. auto.
    + subst g. exists h, (l ++ [(n, g0)]), n. rewrite set_holder_get, Nat.eqb_refl. apply Nat.ltb_lt in Hlt. rewrite Hlt.
      split; [reflexivity|]. apply in_or_app. right. now left.
Qed.

Lemma sound_step w c w' : sound w -> own_step w c = Ok w' -> sound w'.
Proof.
  intros Hs E. pose proof (step_moved w c) as M. rewrite E in M. destruct Hs as [H1 HM H2 H3].
  remember (Ok w') as r eqn:Er. destruct M as [ |c s _ _|c _ _|c|c|s Hn|s Hn| |h n s l Hm Hn Hh|h n s Hn|c hs _ _ Hs]; try discriminate.
  - injection Er as <-. split; auto. intros t Ht. apply HM in Ht. cbn. lia.
  - injection Er as <-. now split.
  - injection Er as <-. split; [exact H1|exact HM| |exact H3]. intros g t Ho Hr. right. eapply H2; eauto.
  - injection Er as <-. assert (Eq : forall g, refers (mk_ow (ow_gone w) (ow_made w) (ow_groups w) (ow_holders w ++ [Some []])) g <-> refers w g).
    { intros g. rewrite !refers_held. cbn [ow_holders]. rewrite held_app. split; [intros [H|(k & [])]; exact H|now left]. }
    split.
    + intros g Hg. apply H1, Eq, Hg.
    + exact HM.
    + intros g t Ho Hr. apply (H2 g t Ho). now rewrite <- Eq.
    + intros g1 g2 t O1 O2 N. rewrite !Eq. eapply H3; eauto.
  - injection Er as <-.
    assert (Eq : forall g, refers (mk_ow (ow_gone w) (ow_made w) (ow_groups w ++ [s])
        (set_holder (ow_holders w) h (Some (l ++ [(n, List.length (ow_groups w))])))) g <-> refers w g \/ g = List.length (ow_groups w)).
    { intros g. rewrite !refers_held. cbn [ow_holders]. now apply held_declare. }
    split.
    + intros g Hg. apply Eq in Hg. cbn [ow_groups]. rewrite app_length. cbn. destruct Hg as [Hg| ->]; [apply H1 in Hg; lia|lia].
    + intros t Ht. apply in_app_or in Ht. destruct Ht as [Ht|[<-|[]]]; [exact (HM t Ht)|exact Hm].
    + intros g t Ho Hr. rewrite Eq in Hr. apply owns_app in Ho. destruct Ho as [Ho|(-> & _)]; [|exfalso; auto].
      apply (H2 g t Ho). auto.
    + intros g1 g2 t O1 O2 N. rewrite !Eq. apply owns_app in O1, O2. destruct O1 as [O1|(-> & _)]; [|auto].
      destruct O2 as [O2|(-> & _)]; [|auto]. destruct (H3 g1 g2 t O1 O2 N); auto.
  - eapply sound_rehold; eauto. now split.
Qed.

Lemma sound_run : forall cs w w', sound w -> own_run w cs = Ok w' -> sound w'.
Proof.
  induction cs as [|c cs IH]; cbn [own_run]; intros w w' H E; [injection E as <-; exact H|].
  apply bind_Ok in E. destruct E as (w1 & E1 & E2). eauto using sound_step.
Qed.

Lemma not_refers_start g : ~ refers owners_start g.
Proof. intros (h & l & n & H & _). destruct h; discriminate. Qed.

Lemma not_owns_start g s : ~ owns owners_start g s.
Proof. unfold owns. destruct g; discriminate. Qed.

Lemma sound_start : sound owners_start.
Proof.
  split; [intros g H; destruct (not_refers_start g H)|intros s []|intros g s H; destruct (not_owns_start g s H)|].
  intros g1 g2 s H; destruct (not_owns_start g1 s H).
Qed.

(** The invariant of programs that hand over *)
Record orderly (spent : list nat) (w : owners) : Prop := {
  or_once : NoDup (ow_groups w);
  or_spent : incl (ow_groups w) spent;
  or_gone : incl (ow_gone w) spent;
  or_lt : forall g, refers w g -> g < List.length (ow_groups w);
  or_alive : forall g s, refers w g -> owns w g s -> ~ deleted w s }.

Lemma owns_of w g : g < List.length (ow_groups w) -> owns w g (nth g (ow_groups w) 0).
Proof. intros H. unfold owns. now apply nth_error_nth'. Qed.

Lemma orderly_rehold spent w hs : orderly spent w -> (forall g, held hs g = true -> held (ow_holders w) g = true) ->
  exists w', rehold w hs = Ok w' /\ orderly spent w'.
Proof.
  intros [H1 H2 H3 H4 H5] Hs. unfold rehold.
  set (rs := released (ow_holders w) hs (List.length (ow_groups w))). set (ss := map (fun g => nth g (ow_groups w) 0) rs).
  assert (Hin : forall g, In g rs -> owns w g (nth g (ow_groups w) 0)).
  { intros g Hg. apply released_In in Hg. apply owns_of. apply Hg. }
  assert (Hinj : forall g1 g2, g1 < List.length (ow_groups w) -> g2 < List.length (ow_groups w) ->
     nth g1 (ow_groups w) 0 = nth g2 (ow_groups w) 0 -> g1 = g2).
  { intros g1 g2 L1 L2 E. exact (proj1 (NoDup_nth (ow_groups w) 0) H1 g1 g2 L1 L2 E). }
  assert (E : delete_all (ow_gone w) ss = Ok (rev ss ++ ow_gone w)).
  { apply delete_spec. split; [reflexivity|]. split.
    - apply NoDup_map_back; [apply NoDup_filter, seq_NoDup|]. intros x y Hx Hy. apply released_In in Hx, Hy.
      apply Hinj; [apply Hx|apply Hy].
    - intros s Hss. apply in_map_iff in Hss. destruct Hss as (g & <- & Hg). apply (H5 g); [|apply Hin, Hg].
      apply released_In in Hg. apply refers_held, Hg. }
  rewrite E. cbn [bind]. eexists. split; [reflexivity|]. split; cbn [ow_groups ow_gone].
  - exact H1.
  - exact H2.
  - intros s Hss. apply in_app_or in Hss. destruct Hss as [Hss|Hss]; [|now apply H3]. rewrite <- in_rev in Hss.
    apply in_map_iff in Hss. destruct Hss as (g & <- & Hg). apply H2. apply nth_In. apply released_In in Hg. apply Hg.
  - intros g Hg. apply refers_held in Hg. apply H4, refers_held, Hs, Hg.
  - intros g s Hg Ho. apply refers_held in Hg. cbn [ow_holders] in Hg. unfold deleted. cbn [ow_gone].
    assert (O : owns w g s) by exact Ho. intros Hd. apply in_app_or in Hd. destruct Hd as [Hd|Hd].
    + rewrite <- in_rev in Hd. apply in_map_iff in Hd. destruct Hd as (g' & E' & Hg'). apply released_In in Hg'.
      assert (g' = g). { apply Hinj; [apply Hg'|eapply owns_lt; eauto|]. now rewrite E', (owns_nth _ _ _ O). }
      subst g'. destruct Hg' as (_ & _ & Hg'). congruence.
    + exact (H5 g s (proj2 (refers_held w g) (Hs g Hg)) O Hd).
Qed.

Lemma orderly_step spent w c cs : orderly spent w -> hands_over spent (c :: cs) ->
  own_step w c <> Undef UB_dangling
  /\ forall w', own_step w c = Ok w' -> exists spent', orderly spent' w' /\ hands_over spent' cs.
Proof.
  intros Ho Hh. pose proof Ho as Ho'. destruct Ho as [H1 H2 H3 H4 H5]. pose proof (step_moved w c) as M.
  set (r := own_step w c) in *. clearbody r.
  destruct M as [ |c s Hc Hin|c N1 N2|c|c|s Hn|s Hin| |h n s l Hm Hn Hl|h n s Hin|c hs N1 N2 Hs].
  - split; [discriminate|]. intros w' [= <-]. exists spent. split; [now split|exact Hh].
  - exfalso. destruct Hc as [->|(g & Hr & Eg & _)].
    + destruct Hh as (Hns & _). apply Hns, H3, Hin.
    + apply (H5 g s Hr); [|exact Hin]. subst s. apply owns_of, H4, Hr.
  - split; [discriminate|]. intros w' [= <-]. exists spent. split; [exact Ho'|]. destruct c; cbn in Hh; try exact Hh; try apply Hh.
    + destruct (N2 s eq_refl).
    + destruct (N1 h name s eq_refl).
  - split; [discriminate|]. intros w' E; discriminate.
  - split; [discriminate|]. intros w' E; discriminate.
  - split; [discriminate|]. intros w' [= <-]. destruct Hh as (Hns & Hh). exists (s :: spent). split; [|exact Hh]. split; cbn [ow_groups ow_gone].
    + exact H1.
    + intros t Ht. right. auto.
    + intros t [<-|Ht]; [now left|]. right. auto.
    + exact H4.
    + intros g t Hr Ho [<-|Hd]; [|exact (H5 g t Hr Ho Hd)]. apply Hns, H2. unfold owns in Ho. cbn in Ho. now apply nth_error_In in Ho.
  - exfalso. destruct Hh as (Hns & _). apply Hns, H3, Hin.
  - split; [discriminate|]. intros w' [= <-]. exists spent. split; [|exact Hh].
    assert (Eq : forall g, refers (mk_ow (ow_gone w) (ow_made w) (ow_groups w) (ow_holders w ++ [Some []])) g -> refers w g).
    { intros g. rewrite !refers_held. cbn [ow_holders]. rewrite held_app. intros [H|(k & [])]; exact H. }
    split; auto. intros g s Hr Ho. exact (H5 g s (Eq g Hr) Ho).
  - split; [discriminate|]. intros w' [= <-]. destruct Hh as (Hns & Hh). exists (s :: spent). split; [|exact Hh].
    assert (Eq : forall g, refers (mk_ow (ow_gone w) (ow_made w) (ow_groups w ++ [s])
        (set_holder (ow_holders w) h (Some (l ++ [(n, List.length (ow_groups w))])))) g <-> refers w g \/ g = List.length (ow_groups w)).
    { intros g. rewrite !refers_held. cbn [ow_holders]. now apply held_declare. }
    split; cbn [ow_groups ow_gone].
    + apply (NoDup_Add (a := s) (l := ow_groups w)); [|split; [exact H1|]].
      * pose proof (Add_app s (ow_groups w) []) as A. now rewrite app_nil_r in A.
      * intros H. apply Hns, H2, H.
    + intros t Ht. apply in_app_or in Ht. destruct Ht as [Ht|[<-|[]]]; [right; auto|now left].
    + intros t Ht. right. auto.
    + intros g Hg. apply Eq in Hg. rewrite app_length. cbn. destruct Hg as [Hg| ->]; [apply H4 in Hg; lia|lia].
    + intros g t Hr Ho. apply owns_app in Ho. destruct Ho as [Ho|(-> & ->)].
      * apply Eq in Hr. destruct Hr as [Hr| ->]; [exact (H5 g t Hr Ho)|]. apply owns_lt in Ho. lia.
      * exact Hn.
  - exfalso. destruct Hh as (Hns & _). apply Hns, H3, Hin.
  - destruct (orderly_rehold spent w hs Ho' Hs) as (w1 & E & O). rewrite E. split; [discriminate|]. intros w' [= <-]. exists spent.
    split; [exact O|]. destruct c; cbn in Hh; try exact Hh; try apply Hh; [destruct (N2 s eq_refl)|destruct (N1 h name s eq_refl)].
Qed.

Lemma orderly_run : forall cs spent w, orderly spent w -> hands_over spent cs ->
  own_run w cs <> Undef UB_dangling /\ forall w', own_run w cs = Ok w' -> exists spent', orderly spent' w'.
Proof.
  induction cs as [|c cs IH]; intros spent w Ho Hh; cbn [own_run].
  - split; [discriminate|]. intros w' [= <-]. eauto.
  - destruct (orderly_step spent w c cs Ho Hh) as (N & S). destruct (own_step w c) as [w1|e|u|]; cbn [bind].
    + destruct (S w1 eq_refl) as (spent' & O & H). eauto.
    + split; [discriminate|intros; discriminate].
    + split; [congruence|intros; discriminate].
    + split; [discriminate|intros; discriminate].
Qed.

Lemma orderly_start : orderly [] owners_start.
Proof.
  split; [constructor|intros s []|intros s []| |].
  - intros g H; destruct (not_refers_start g H).
  - intros g s H; destruct (not_refers_start g H).
Qed.

(** Where the groups and what is deleted come from *)
Lemma step_origin w c w' : own_step w c = Ok w' ->
  ow_groups w' = ow_groups w ++ match c with ODeclare _ _ s => [s] | _ => [] end
  /\ (forall s, deleted w' s -> deleted w s \/ In s (ow_groups w) \/ c = ODelete s).
Proof.
  intros E. pose proof (step_moved w c) as M. rewrite E in M. remember (Ok w') as r eqn:Er. clear E.
  destruct M as [ |c s _ _|c N1 N2|c|c|s Hn|s Hn| |h n s l Hm Hn Hh|h n s Hn|c hs N1 N2 Hs]; try discriminate.
  - injection Er as <-. cbn. rewrite app_nil_r. auto.
  - injection Er as <-. split; [|auto]. destruct c; rewrite ?app_nil_r; auto. destruct (N1 h name s eq_refl).
  - injection Er as <-. cbn. rewrite app_nil_r. split; [reflexivity|]. intros t [<-|H]; auto.
  - injection Er as <-. cbn. rewrite app_nil_r. auto.
  - injection Er as <-. cbn. auto.
  - rename Er into E. apply rehold_Ok in E. cbv zeta in E. destruct E as (-> & _ & _). cbn [ow_groups]. split.
    + destruct c; rewrite ?app_nil_r; auto. destruct (N1 h name s eq_refl).
    + intros s H. unfold deleted in H. cbn [ow_gone] in H. apply in_app_or in H. destruct H as [H|H]; [|now left].
      rewrite <- in_rev in H. apply in_map_iff in H. destruct H as (g & <- & Hg). right. left. apply nth_In.
      apply released_In in Hg. apply Hg.
Qed.

Lemma run_origin : forall cs w w', own_run w cs = Ok w' ->
  (forall s, In s (ow_groups w') <-> In s (ow_groups w) \/ gives cs s)
  /\ (forall s, deleted w' s -> deleted w s \/ In s (ow_groups w) \/ gives cs s \/ In (ODelete s) cs).
Proof.
  induction cs as [|c cs IH]; cbn [own_run]; intros w w' E.
  - injection E as <-. split; [|auto]. intros s. split; [auto|]. intros [H|(h & n & [])]; exact H.
  - apply bind_Ok in E. destruct E as (w1 & E1 & E2). apply step_origin in E1. destruct E1 as (G & D).
    destruct (IH _ _ E2) as (I1 & I2).
    assert (Hg : forall s, In s (ow_groups w1) -> In s (ow_groups w) \/ gives (c :: cs) s).
    { intros s H. rewrite G in H. apply in_app_or in H. destruct H as [H|H]; [now left|]. right.
      destruct c; try contradiction. destruct H as [<-|[]]. exists h, name. now left. }
    assert (Hc : forall s, gives cs s -> gives (c :: cs) s).
    { intros s (h & n & H). exists h, n. now right. }
    split.
    + intros s. rewrite I1. split.
      * intros [H|H]; [auto|right; auto].
      * intros [H|(h & n & [->|H])].
        -- left. rewrite G. apply in_or_app. now left.
        -- left. rewrite G. apply in_or_app. right. now left.
        -- right. now exists h, n.
    + intros s H. destruct (I2 s H) as [H'|[H'|[H'|H']]].
      * destruct (D s H') as [X|[X|X]]; [auto|auto|]. right. right. right. now left.
      * destruct (Hg s H'); auto.
      * right. right. left. auto.
      * right. right. right. now right.
Qed.

(** What a call leaves as it is *)
Lemma step_leaves w c w' m : own_step w c = Ok w' -> changes m c = false -> m < List.length (ow_holders w) ->
  nth_error (ow_holders w') m = nth_error (ow_holders w) m /\ m < List.length (ow_holders w').
Proof.
  assert (Len : forall hs h x, List.length (set_holder hs h x) = List.length hs).
  { induction hs as [|y hs IH]; intros [|h] x; cbn; auto. }
  assert (A : forall x, m < List.length (ow_holders w) -> nth_error (ow_holders w ++ [x]) m = nth_error (ow_holders w) m
     /\ m < List.length (ow_holders w ++ [x])).
  { intros x L. rewrite nth_error_app1 by exact L. rewrite app_length. cbn. split; [reflexivity|lia]. }
  assert (B : forall h x, Nat.eqb m h = false -> m < List.length (ow_holders w) ->
     nth_error (set_holder (ow_holders w) h x) m = nth_error (ow_holders w) m /\ m < List.length (set_holder (ow_holders w) h x)).
  { intros h x E L. rewrite set_holder_get, E, Len. auto. }
  destruct c as [ |s|s| |h name s|h|h k|m' h name|h name|m' name|m'|h]; cbn [own_step changes]; intros E C L.
  - injection E as <-. auto.
  - apply bind_Ok in E. destruct E as (u & _ & E). injection E as <-. auto.
  - apply bind_Ok in E. destruct E as (u & _ & E). injection E as <-. auto.
  - injection E as <-. cbn [ow_holders]. auto.
  - apply bind_Ok in E. destruct E as (u & _ & E). apply bind_Ok in E. destruct E as (l & _ & E). injection E as <-. cbn [ow_holders]. auto.
  - apply bind_Ok in E. destruct E as (l & _ & E). apply rehold_Ok in E. cbv zeta in E. destruct E as (-> & _). cbn [ow_holders]. auto.
  - apply bind_Ok in E. destruct E as (l & _ & E). apply bind_Ok in E. destruct E as (l' & _ & E).
    destruct (Nat.eqb h k && negb (is_empty l)); [discriminate|].
    apply rehold_Ok in E. cbv zeta in E. destruct E as (-> & _). cbn [ow_holders]. auto.
  - apply bind_Ok in E. destruct E as (l & _ & E). apply bind_Ok in E. destruct E as (g & _ & E). apply bind_Ok in E.
    destruct E as (u & _ & E). apply bind_Ok in E. destruct E as (e & _ & E).
    apply rehold_Ok in E. cbv zeta in E. destruct E as (-> & _). cbn [ow_holders]. auto.
  - apply bind_Ok in E. destruct E as (l & _ & E). apply bind_Ok in E. destruct E as (g & _ & E). apply bind_Ok in E.
    destruct E as (u & _ & E). injection E as <-. auto.
  - apply bind_Ok in E. destruct E as (l & _ & E). apply rehold_Ok in E. cbv zeta in E. destruct E as (-> & _). cbn [ow_holders]. auto.
  - apply bind_Ok in E. destruct E as (l & _ & E). apply rehold_Ok in E. cbv zeta in E. destruct E as (-> & _). cbn [ow_holders]. auto.
  - apply bind_Ok in E. destruct E as (l & _ & E). apply rehold_Ok in E. cbv zeta in E. destruct E as (-> & _). cbn [ow_holders]. auto.
Qed.

Lemma run_leaves m : forall cs w w', own_run w cs = Ok w' -> Forall (fun c => changes m c = false) cs -> m < List.length (ow_holders w) ->
  nth_error (ow_holders w') m = nth_error (ow_holders w) m.
Proof.
  induction cs as [|c cs IH]; cbn [own_run]; intros w w' E F L; [injection E as <-; reflexivity|].
  apply bind_Ok in E. destruct E as (w1 & E1 & E2). inversion F; subst.
  destruct (step_leaves _ _ _ _ E1 H1 L) as (N & L'). rewrite <- N. eauto.
Qed.

Lemma run_app : forall cs cs' w, own_run w (cs ++ cs') = bind (own_run w cs) (fun w1 => own_run w1 cs').
Proof.
  induction cs as [|c cs IH]; intros cs' w; cbn [own_run app]; [reflexivity|]. destruct (own_step w c); cbn [bind]; auto.
Qed.

Lemma group_last l name g : group_of (but_for name l ++ [(name, g)]) name = Ok g.
Proof.
  induction l as [|(k & x) l IH]; cbn.
  - now rewrite str_eqb_refl.
  - destruct (str_eqb k name) eqn:E; cbn; [exact IH|]. rewrite E. exact IH.
Qed.

Lemma store_entry w m h name w' : own_step w (OStore m h name) = Ok w' ->
  exists l g, nth_error (ow_holders w') m = Some (Some l) /\ group_of l name = Ok g.
Proof.
  cbn [own_step]. intros E. apply bind_Ok in E. destruct E as (l & _ & E). apply bind_Ok in E. destruct E as (g & _ & E). apply bind_Ok in E.
  destruct E as (u & _ & E). apply bind_Ok in E. destruct E as (e & R & E). apply rehold_Ok in E. cbv zeta in E. destruct E as (-> & _).
  cbn [ow_holders]. exists (but_for name e ++ [(name, g)]), g. rewrite set_holder_get, Nat.eqb_refl. split; [|apply group_last].
  unfold refs_of in R. destruct (nth_error (ow_holders w) m) as [x|] eqn:N; [|discriminate].
  assert (L : m < List.length (ow_holders w)) by (apply nth_error_Some; congruence). apply Nat.ltb_lt in L. now rewrite L.
Qed.

(** What the calls refer to afterwards *)
Lemma refs_of_Ok w h l : refs_of w h = Ok l -> refs w h l.
Proof. unfold refs_of, refs. destruct (nth_error (ow_holders w) h) as [[x|]|]; try discriminate. now intros [= ->]. Qed.

Lemma group_first : forall l name g, group_of l name = Ok g -> first_of l name g.
Proof.
  induction l as [|(k & x) l IH]; cbn; intros name g E; [discriminate|]. destruct (str_eqb k name) eqn:K.
  - injection E as ->. apply str_eqb_eq in K. subst k. exists [], l. split; [reflexivity|]. intros g' [].
  - destruct (IH _ _ E) as (l1 & l2 & -> & N). exists ((k, x) :: l1), l2. split; [reflexivity|]. intros g' [[= -> _]|H]; [|exact (N g' H)].
    rewrite str_eqb_refl in K. discriminate.
Qed.

Lemma set_here w h l x : refs w h l -> nth_error (set_holder (ow_holders w) h x) h = Some x.
Proof.
  unfold refs. intros H. rewrite set_holder_get, Nat.eqb_refl.
  assert (L : h < List.length (ow_holders w)) by (apply nth_error_Some; congruence). apply Nat.ltb_lt in L. now rewrite L.
Qed.

Lemma but_for_In name l k g : In (k, g) (but_for name l) <-> In (k, g) l /\ k <> name.
Proof.
  unfold but_for. rewrite filter_In, negb_true_iff. cbn [fst]. split; intros (H & E); (split; [exact H|]).
  - intros ->. rewrite str_eqb_refl in E. discriminate.
  - destruct (str_eqb k name) eqn:X; [|reflexivity]. apply str_eqb_eq in X. contradiction.
Qed.
