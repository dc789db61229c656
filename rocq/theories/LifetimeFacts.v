(** Facts about objects that end. *)

From Coq Require Import List Ascii String NArith ZArith Bool Lia.
From Verif Require Import Base Errors Values OptDesc Positional Cmdline Parsers VarMap Build Objects SpecStore Lifetimes SpecLifetimes.
Import ListNotations.

(** ** Cells *)

(** [l] is [l'] with the cells in [P] emptied. *)
Definition fades {A} (P : nat -> Prop) (l l' : list (option A)) : Prop :=
  List.length l = List.length l'
  /\ forall i, (P i /\ nth_error l i = Some None) \/ (~ P i /\ nth_error l i = nth_error l' i).

Definition full {A} (l : list (option A)) : Prop := forall i, nth_error l i <> Some None.

Lemma set_cell_length : forall A (l : list A) i x, List.length (set_cell l i x) = List.length l.
Proof. induction l as [|y l IH]; destruct i; intros; cbn; congruence. Qed.

Lemma nth_set_cell : forall A (l : list A) i x j,
  nth_error (set_cell l i x) j = if Nat.eqb i j then match nth_error l i with Some _ => Some x | None => None end else nth_error l j.
Proof.
  induction l as [|y l IH]; intros i x j.
  - cbn. destruct (Nat.eqb i j) eqn:E; destruct i, j; try reflexivity.
  - destruct i, j; cbn [set_cell nth_error Nat.eqb]; try reflexivity. apply IH.
Qed.

Lemma nth_app_one : forall A (l : list A) x i,
  nth_error (l ++ [x]) i = if Nat.eqb i (List.length l) then Some x else nth_error l i.
Proof.
  intros A l x i. destruct (Nat.eqb_spec i (List.length l)) as [->|Hne].
  - rewrite nth_error_app2 by lia. rewrite Nat.sub_diag. reflexivity.
  - destruct (Nat.lt_ge_cases i (List.length l)).
    + apply nth_error_app1; assumption.
    + rewrite nth_error_app2 by lia. replace (nth_error l i) with (@None A) by (symmetry; apply nth_error_None; assumption).
      destruct (i - List.length l) as [|n] eqn:E; [lia|]. destruct n; reflexivity.
Qed.

Lemma fades_ext : forall A (P Q : nat -> Prop) (l l' : list (option A)),
  fades P l l' -> (forall i, P i <-> Q i) -> fades Q l l'.
Proof.
  intros A P Q l l' [Hlen H] HPQ. split; [assumption|]. intros i.
  destruct (H i) as [[Hp Hn]|[Hp Hn]]; [left|right]; (split; [|assumption]); rewrite <- HPQ; assumption.
Qed.

Lemma fades_refl : forall A (l : list (option A)), fades (fun _ => False) l l.
Proof. intros A l. split; [reflexivity|]. intros i. right. split; [intros []|reflexivity]. Qed.

Lemma fades_app : forall A (P : nat -> Prop) (l l' : list (option A)) x, fades P l l' -> fades P (l ++ [x]) (l' ++ [x]).
Proof.
  intros A P l l' x [Hlen H]. split; [rewrite !app_length, Hlen; reflexivity|]. intros i. rewrite !nth_app_one, <- Hlen.
  destruct (Nat.eqb_spec i (List.length l)) as [->|Hne]; [|apply H].
  right. split; [|reflexivity]. intros Hp. destruct (H (List.length l)) as [[_ Hn]|[Hn _]]; [|contradiction].
  assert (List.length l < List.length l) by (apply nth_error_Some; rewrite Hn; discriminate). lia.
Qed.

Lemma fades_set : forall A (P : nat -> Prop) (l l' : list (option A)) i x,
  fades P l l' -> ~ P i -> fades P (set_cell l i x) (set_cell l' i x).
Proof.
  intros A P l l' i x [Hlen H] Hp. split; [rewrite !set_cell_length; assumption|]. intros j. rewrite !nth_set_cell.
  destruct (Nat.eqb_spec i j) as [<-|Hne]; [|apply H].
  right. split; [assumption|]. destruct (H i) as [[Hp' _]|[_ ->]]; [contradiction|reflexivity].
Qed.

Lemma fades_end : forall A (P : nat -> Prop) (l l' : list (option A)) i,
  fades P l l' -> i < List.length l -> fades (fun j => j = i \/ P j) (set_cell l i None) l'.
Proof.
  intros A P l l' i [Hlen H] Hi. split; [rewrite set_cell_length; assumption|]. intros j. rewrite nth_set_cell.
  destruct (Nat.eqb_spec i j) as [<-|Hne].
  - left. split; [left; reflexivity|]. destruct (nth_error l i) eqn:E; [reflexivity|]. apply nth_error_None in E. lia.
  - destruct (H j) as [[Hp Hn]|[Hp Hn]]; [left|right]; (split; [|assumption]).
    + right; assumption.
    + intros [->|Hq]; [apply Hne; reflexivity|contradiction].
Qed.

Lemma full_app : forall A (l : list (option A)) x, full l -> full (l ++ [Some x]).
Proof. intros A l x H i. rewrite nth_app_one. destruct (Nat.eqb i (List.length l)); [discriminate|apply H]. Qed.

Lemma full_set : forall A (l : list (option A)) i x, full l -> full (set_cell l i (Some x)).
Proof.
  intros A l i x H j. rewrite nth_set_cell. destruct (Nat.eqb i j); [|apply H]. destruct (nth_error l i); discriminate.
Qed.

(** What a use finds. *)
Lemma fades_fetch : forall A (P : nat -> Prop) (l l' : list (option A)) i, fades P l l' ->
  (P i /\ fetch l i = Undef UB_dangling) \/ (~ P i /\ fetch l i = fetch l' i).
Proof.
  intros A P l l' i [_ H]. unfold fetch. destruct (H i) as [[Hp ->]|[Hp ->]]; [left|right]; split; (assumption || reflexivity).
Qed.

Lemma fetch_fail : forall A (l : list (option A)) i, full l -> (exists x, fetch l i = Ok x) \/ fetch l i = Undef UB_null.
Proof.
  intros A l i H. unfold fetch. specialize (H i). destruct (nth_error l i) as [[x|]|]; [left; exists x; reflexivity|congruence|right; reflexivity].
Qed.

Lemma fetch_ok : forall A (l : list (option A)) i x, fetch l i = Ok x <-> nth_error l i = Some (Some x).
Proof. intros A l i x. unfold fetch. destruct (nth_error l i) as [[y|]|]; split; intros H; try discriminate; congruence. Qed.

Lemma made_ok : forall A (l : list (option A)) i x, made l i = Ok x <-> nth_error l i = Some (Some x).
Proof. intros A l i x. unfold made. destruct (nth_error l i) as [[y|]|]; split; intros H; try discriminate; congruence. Qed.

Lemma made_cases : forall A (l : list (option A)) i, (exists x, made l i = Ok x) \/ made l i = Undef UB_null.
Proof. intros A l i. unfold made. destruct (nth_error l i) as [[x|]|]; eauto. Qed.

(** ** The two states: with and without the destructions [before] *)

Definition shadow (before : list life_call) (w w' : life_world) : Prop :=
  fades (fun x => In (LEndDesc x) before) (lw_descs w) (lw_descs w') /\ full (lw_descs w')
  /\ fades (fun q => In (LEndPos q) before) (lw_positionals w) (lw_positionals w') /\ full (lw_positionals w')
  /\ lw_parsers w = lw_parsers w' /\ lw_sources w = lw_sources w'
  /\ fades (fun k => In (LEndMap k) before) (lw_maps w) (lw_maps w') /\ full (lw_maps w')
  /\ (forall a, In a (lw_gone w) <-> In (LEndVariable a) before) /\ lw_gone w' = [].

Lemma shadow_more : forall before c w w', is_end c = false -> shadow before w w' -> shadow (before ++ [c]) w w'.
Proof.
  intros before c w w' Hc (H1 & H2 & H3 & H4 & H5 & H6 & H7 & H8 & H9 & H10).
  assert (Hin : forall e, is_end e = true -> In e before <-> In e (before ++ [c])).
  { intros e He. rewrite in_app_iff. split; [auto|]. intros [Hi|[<-|[]]]; [assumption|congruence]. }
  repeat split; try assumption; try (apply H1); try (apply H3); try (apply H7).
  - eapply fades_ext; [exact H1|]. intros i. apply Hin. reflexivity.
  - eapply fades_ext; [exact H3|]. intros i. apply Hin. reflexivity.
  - eapply fades_ext; [exact H7|]. intros i. apply Hin. reflexivity.
  - intros Hi. apply Hin; [reflexivity|]. apply H9. assumption.
  - intros Hi. apply H9. apply Hin; [reflexivity|assumption].
Qed.

Definition same_result (before : list life_call) (r r' : outcome (life_world * list seen)) : Prop :=
  match r, r' with
  | Ok (w1, ys), Ok (w1', ys') => ys = ys' /\ shadow before w1 w1'
  | Throw e, Throw e' => e = e'
  | Undef u, Undef u' => u = u'
  | NoFuel, NoFuel => True
  | _, _ => False
  end.

Definition is_ok {A} (r : outcome A) : Prop := match r with Ok _ => True | _ => False end.

(** ** What a call uses, read off the pointers in the state

    A lookup of [name] in the map [m] comes to the map [k]: it goes on to the next map until it finds an explicit value. *)
Inductive ptr_comes_to (w : life_world) (name : str) : nat -> nat -> Prop :=
| pct_here m : ptr_comes_to w name m m
| pct_next m mo n k : nth_error (lw_maps w) m = Some (Some mo) -> mo_next mo = Some n ->
    ~ explicit (vm_get (mo_map mo) name) -> ptr_comes_to w name n k -> ptr_comes_to w name m k.

(** In the state [w], the call uses ... *)

(** ... the description [x]: because it is named, because the parser has been given it, or because the source comes from it. *)
Inductive ptr_desc (w : life_world) (x : nat) : life_call -> Prop :=
| pnd_copy : ptr_desc w x (LDesc (DCopy x))
| pnd_add d : ptr_desc w x (LDesc (DAdd x d))
| pnd_group_to b : ptr_desc w x (LDesc (DAddGroup x b))
| pnd_group a : ptr_desc w x (LDesc (DAddGroup a x))
| pnd_options p : ptr_desc w x (LOptions p x)
| pnd_run p lp : nth_error (lw_parsers w) p = Some (Some lp) -> lp_desc lp = Some x -> ptr_desc w x (LRun p)
| pnd_parse read : ptr_desc w x (LParse x read)
| pnd_store s src m utf8 : nth_error (lw_sources w) s = Some (Some src) -> ls_desc src = x -> ptr_desc w x (LStore s m utf8).

(** ... the positional description [q]; *)
Inductive ptr_pos (w : life_world) (q : nat) : life_call -> Prop :=
| pnp_add name n : ptr_pos w q (LAddPos q name n)
| pnp_positional p : ptr_pos w q (LPositional p q)
| pnp_run p lp : nth_error (lw_parsers w) p = Some (Some lp) -> lp_pos lp = Some q -> ptr_pos w q (LRun p).

(** ... the map [k]: because it is named or because a lookup comes to it; *)
Inductive ptr_map (w : life_world) (k : nat) : life_call -> Prop :=
| pnm_next n : ptr_map w k (LNext k n)
| pnm_next_to m : ptr_map w k (LNext m (Some k))
| pnm_store s utf8 : ptr_map w k (LStore s k utf8)
| pnm_notify : ptr_map w k (LNotify k)
| pnm_get m name : ptr_comes_to w name m k -> ptr_map w k (LGet m name).

Definition ptr_uses (before : list life_call) (w : life_world) (c : life_call) : Prop :=
  (exists x, In (LEndDesc x) before /\ ptr_desc w x c)
  \/ (exists q, In (LEndPos q) before /\ ptr_pos w q c)
  \/ (exists k, In (LEndMap k) before /\ ptr_map w k c)
  \/ (exists a, In (LEndVariable a) before /\ needs_variable w a c).

(** ** Lookups *)

Lemma index_shadow : forall (w' : life_world) (P : nat -> Prop) l name, fades P l (lw_maps w') ->
  forall fuel a,
    ((exists k, P k /\ ptr_comes_to w' name a k) /\ life_index fuel l a name = Undef UB_dangling)
    \/ (~ (exists k, P k /\ ptr_comes_to w' name a k) /\ life_index fuel l a name = life_index fuel (lw_maps w') a name)
    \/ (life_index fuel l a name = life_index fuel (lw_maps w') a name /\ ~ is_ok (life_index fuel (lw_maps w') a name)).
Proof.
  intros w' P l name Hf. induction fuel as [|fuel IH]; intros a.
  - right. right. split; [reflexivity|]. cbn. tauto.
  - cbn [life_index]. destruct (fades_fetch _ _ _ _ a Hf) as [[Hp ->]|[Hp ->]].
    + left. split; [exists a; split; [assumption|constructor]|reflexivity].
    + destruct (fetch (lw_maps w') a) as [mo|e|u|] eqn:E; cbn [bind]; try (right; right; split; [reflexivity|cbn; tauto]).
      apply fetch_ok in E. set (v := vm_get (mo_map mo) name) in *.
      destruct (mo_next mo) as [b|] eqn:En.
      2:{ right. left. split; [|reflexivity]. intros (k & Hk & Hc). inversion Hc; subst; [contradiction|]. congruence. }
      assert (Hcase : ~ explicit v /\ (any_empty (vv_value v) = true \/ any_empty (vv_value v) = false /\ vv_defaulted v = true)
                      \/ explicit v /\ any_empty (vv_value v) = false /\ vv_defaulted v = false).
      { unfold explicit. destruct (vv_value v) as [x|]; cbn [any_empty].
        - destruct (vv_defaulted v) eqn:E2; [left; split; [intros [_ H]; discriminate|right; split; reflexivity]|].
          right. repeat split. discriminate.
        - left. split; [intros [H _]; contradiction|left; reflexivity]. }
      destruct Hcase as [[Hne Hbr]|(Hx & E1 & E2)].
      2:{ rewrite E1, E2. right. left. split; [|reflexivity]. intros (k & Hk & Hc). inversion Hc; subst; [contradiction|].
          assert (mo0 = mo) by congruence. subst mo0. contradiction. }
      assert (Hup : forall k, ptr_comes_to w' name b k -> ptr_comes_to w' name a k).
      { intros k Hk. apply pct_next with (mo := mo) (n := b); assumption. }
      assert (Hdown : forall k, P k -> ptr_comes_to w' name a k -> ptr_comes_to w' name b k).
      { intros k Hk Hc. inversion Hc; subst; [contradiction|]. assert (mo0 = mo) by congruence. subst mo0. congruence. }
      destruct (IH b) as [[(k & Hk & Hc) Hi]|[[Hno Hi]|[Hi Hbad]]].
      * left. split; [exists k; auto|]. rewrite Hi. destruct Hbr as [->|[-> ->]]; reflexivity.
      * right. left. split; [|rewrite Hi; reflexivity]. intros (k & Hk & Hc). apply Hno. exists k. auto.
      * right. right. rewrite Hi. split; [reflexivity|].
        destruct Hbr as [->|[-> ->]]; [assumption|]. destruct (life_index fuel (lw_maps w') b name); cbn in *; tauto.
Qed.

(** ** One call *)

Definition trichotomy fuel before w w' c : Prop :=
  (ptr_uses before w' c /\ life_step fuel w c = Undef UB_dangling)
  \/ (~ ptr_uses before w' c /\ same_result (before ++ [c]) (life_step fuel w c) (life_step fuel w' c))
  \/ (same_result (before ++ [c]) (life_step fuel w c) (life_step fuel w' c) /\ ~ is_ok (life_step fuel w' c)).

(** Refute [ptr_uses] by looking at what the call can need. *)
Ltac no_use :=
  let x := fresh "x" in let Hin := fresh "Hin" in let Hn := fresh "Hn" in
  intros [(x & Hin & Hn)|[(x & Hin & Hn)|[(x & Hin & Hn)|(x & Hin & Hn)]]]; inversion Hn; subst; cbn in *;
  try contradiction; try congruence.

Lemma shadow_intro : forall before c ds ds' qs qs' ps ss ms ms' gone, is_end c = false ->
  fades (fun x => In (LEndDesc x) before) ds ds' -> full ds' ->
  fades (fun q => In (LEndPos q) before) qs qs' -> full qs' ->
  fades (fun k => In (LEndMap k) before) ms ms' -> full ms' ->
  (forall a, In a gone <-> In (LEndVariable a) before) ->
  shadow (before ++ [c]) (mk_lw ds qs ps ss ms gone) (mk_lw ds' qs' ps ss ms' []).
Proof.
  intros. apply shadow_more; [assumption|]. unfold shadow; cbn. repeat (split; [assumption || reflexivity|]). reflexivity.
Qed.

Lemma gone_none : forall events, existsb (writes_gone []) events = false.
Proof. induction events as [|[]]; cbn; auto. Qed.

Lemma gone_some : forall gone events, existsb (writes_gone gone) events = true -> exists a v, In a gone /\ In (EvStore a v) events.
Proof.
  intros gone events H. apply existsb_exists in H as (ev & Hin & Hw). destruct ev as [a v|]; [|discriminate].
  cbn in Hw. apply existsb_exists in Hw as (a' & Ha & He). apply Nat.eqb_eq in He. subst a'. eauto.
Qed.

Lemma gone_not : forall gone events, existsb (writes_gone gone) events = false ->
  forall a v, In a gone -> In (EvStore a v) events -> False.
Proof.
  intros gone events H a v Ha Hev. assert (existsb (writes_gone gone) events = true); [|congruence].
  apply existsb_exists. exists (EvStore a v). split; [assumption|]. cbn. apply existsb_exists. exists a. split; [assumption|apply Nat.eqb_refl].
Qed.

(** The three cases. *)
Ltac casea := left; split; [|try reflexivity].
Ltac caseb := right; left; split; [no_use|].
Ltac casec := right; right; split; [cbn; try reflexivity; try tauto|cbn; tauto].

Lemma step_shadow : forall fuel before w w' c, shadow before w w' -> is_end c = false -> trichotomy fuel before w w' c.
Proof.
  intros fuel before [ds qs ps ss ms gone] [ds' qs' ps' ss' ms' gone'] c Hs Hc.
  assert (Hkeep := Hs). destruct Hkeep as (Fd & Ud & Fq & Uq & Ep & Es & Fm & Um & Hg & Eg). cbn in *. subst ps' ss' gone'.
  unfold trichotomy. destruct c; try discriminate Hc.
  - (* descriptions *)
    destruct c as [caption ll md|b|a d|a b]; cbn [life_step life_desc].
    + caseb. destruct (new_options caption ll md); cbn; try reflexivity. split; [reflexivity|].
      apply shadow_intro; auto using fades_app, full_app.
    + destruct (fades_fetch _ _ _ _ b Fd) as [[Hp ->]|[Hp ->]].
      * casea. left. exists b. split; [assumption|constructor].
      * destruct (fetch_fail _ ds' b Ud) as [[v ->]| ->]; [|casec].
        caseb. cbn. split; [reflexivity|]. apply shadow_intro; auto using fades_app, full_app.
    + destruct (fades_fetch _ _ _ _ a Fd) as [[Hp ->]|[Hp ->]].
      * casea. left. exists a. split; [assumption|constructor].
      * destruct (fetch_fail _ ds' a Ud) as [[v ->]| ->]; [|casec].
        caseb. cbn. split; [reflexivity|]. apply shadow_intro; auto using fades_set, full_set.
    + destruct (fades_fetch _ _ _ _ a Fd) as [[Hp ->]|[Hp ->]].
      * casea. left. exists a. split; [assumption|constructor].
      * destruct (fetch_fail _ ds' a Ud) as [[v ->]| ->]; [|casec]. cbn [bind].
        destruct (fades_fetch _ _ _ _ b Fd) as [[Hq ->]|[Hq ->]].
        -- casea. left. exists b. split; [assumption|constructor].
        -- destruct (fetch_fail _ ds' b Ud) as [[u ->]| ->]; [|casec]. cbn [bind].
           destruct (Nat.eqb a b && _); [casec|].
           caseb. cbn. split; [reflexivity|]. apply shadow_intro; auto using fades_set, full_set.
  - (* LNewPos *)
    cbn. caseb. split; [reflexivity|]. apply shadow_intro; auto using fades_app, full_app.
  - (* LAddPos *)
    cbn [life_step]. destruct (fades_fetch _ _ _ _ q Fq) as [[Hp ->]|[Hp ->]].
    + casea. right. left. exists q. split; [assumption|constructor].
    + destruct (fetch_fail _ qs' q Uq) as [[v ->]| ->]; [|casec]. cbn [bind].
      destruct (positional_add v name max_count); cbn; try (casec; fail); caseb; (split; [reflexivity|]);
        apply shadow_intro; auto using fades_set, full_set.
  - (* LNewParser *)
    cbn. caseb. split; [reflexivity|]. apply shadow_intro; auto.
  - (* LOptions *)
    cbn [life_step]. destruct (made_cases _ ps p) as [[lp Hlp]|Hlp]; rewrite Hlp; [|casec]. cbn [bind].
    destruct (fades_fetch _ _ _ _ x Fd) as [[Hp ->]|[Hp ->]].
    + casea. left. exists x. split; [assumption|constructor].
    + destruct (fetch_fail _ ds' x Ud) as [[v ->]| ->]; [|casec]. cbn [bind].
      caseb. split; [reflexivity|]. apply shadow_intro; auto.
  - (* LPositional *)
    cbn [life_step]. destruct (made_cases _ ps p) as [[lp Hlp]|Hlp]; rewrite Hlp; [|casec]. cbn [bind].
    destruct (fades_fetch _ _ _ _ q Fq) as [[Hp ->]|[Hp ->]].
    + casea. right. left. exists q. split; [assumption|constructor].
    + destruct (fetch_fail _ qs' q Uq) as [[v ->]| ->]; [|casec]. cbn [bind].
      caseb. split; [reflexivity|]. apply shadow_intro; auto.
  - (* LSetting *)
    cbn [life_step]. destruct (made_cases _ ps p) as [[lp Hlp]|Hlp]; rewrite Hlp; [|casec]. cbn [bind].
    destruct (parser_apply (lp_self lp) (setting_call s)); cbn; try (casec; fail); caseb; (split; [reflexivity|]);
      apply shadow_intro; auto.
  - (* LRun *)
    cbn [life_step]. destruct (made_cases _ ps p) as [[lp Hlp]|Hlp]; rewrite Hlp; [|casec]. cbn [bind].
    apply made_ok in Hlp. unfold life_parse. cbn [lw_descs lw_positionals].
    destruct (lp_desc lp) as [x|] eqn:Ex; [|casec].
    destruct (fades_fetch _ _ _ _ x Fd) as [[Hp ->]|[Hp ->]].
    + casea. left. exists x. split; [assumption|]. econstructor; [exact Hlp|assumption].
    + destruct (fetch_fail _ ds' x Ud) as [[v ->]| ->]; [|casec]. cbn [bind].
      assert (Hq : (exists q, lp_pos lp = Some q /\ In (LEndPos q) before /\ fetch_opt qs (lp_pos lp) = Undef UB_dangling)
                   \/ ((forall q, lp_pos lp = Some q -> ~ In (LEndPos q) before)
                       /\ fetch_opt qs (lp_pos lp) = fetch_opt qs' (lp_pos lp)
                       /\ ((exists o, fetch_opt qs' (lp_pos lp) = Ok o) \/ fetch_opt qs' (lp_pos lp) = Undef UB_null))).
      { destruct (lp_pos lp) as [q|]; cbn [fetch_opt].
        - destruct (fades_fetch _ _ _ _ q Fq) as [[Hq ->]|[Hq ->]].
          + left. exists q. repeat split. assumption.
          + right. split; [intros ? E; injection E as <-; assumption|]. split; [reflexivity|].
            destruct (fetch_fail _ qs' q Uq) as [[o ->]| ->]; cbn; eauto.
        - right. split; [discriminate|]. split; [reflexivity|]. left. eexists. reflexivity. }
      destruct Hq as [(q & Eq & Hq & ->)|(Hq & -> & [[o ->]| ->])].
      * casea. right. left. exists q. split; [assumption|]. econstructor; [exact Hlp|assumption].
      * cbn [bind]. destruct (parser_object_run _ _) as [[src p']|e|u|]; cbn; try (casec; fail);
          (right; left; split; [no_use|split; [reflexivity|apply shadow_intro; auto]]).
        all: rewrite Hlp in *.
        all: match goal with H : Some (Some _) = Some (Some _) |- _ => injection H as <- end.
        all: try (rewrite Ex in *; match goal with H : Some _ = Some _ |- _ => injection H as <- end; contradiction).
        all: eapply Hq; eauto.
      * casec.
  - (* LParse *)
    cbn [life_step]. destruct (fades_fetch _ _ _ _ x Fd) as [[Hp ->]|[Hp ->]].
    + casea. left. exists x. split; [assumption|constructor].
    + destruct (fetch_fail _ ds' x Ud) as [[v ->]| ->]; [|casec]. cbn [bind].
      destruct (read (ods_list v)); cbn; try (casec; fail); caseb; (split; [reflexivity|]); apply shadow_intro; auto.
  - (* LNewMap *)
    cbn. caseb. split; [reflexivity|]. apply shadow_intro; auto using fades_app, full_app.
  - (* LNext *)
    cbn [life_step]. destruct (fades_fetch _ _ _ _ m Fm) as [[Hp ->]|[Hp ->]].
    + casea. right. right. left. exists m. split; [assumption|constructor].
    + destruct (fetch_fail _ ms' m Um) as [[mo ->]| ->]; [|casec]. cbn [bind].
      destruct n as [n|]; cbn [fetch_opt].
      * destruct (fades_fetch _ _ _ _ n Fm) as [[Hq ->]|[Hq ->]].
        -- casea. right. right. left. exists n. split; [assumption|constructor].
        -- destruct (fetch_fail _ ms' n Um) as [[mo2 ->]| ->]; [|casec]. cbn [bind].
           caseb. split; [reflexivity|]. apply shadow_intro; auto using fades_set, full_set.
      * cbn [bind]. caseb. split; [reflexivity|]. apply shadow_intro; auto using fades_set, full_set.
  - (* LStore *)
    cbn [life_step]. destruct (made_cases _ ss s) as [[src Hsrc]|Hsrc]; rewrite Hsrc; [|casec]. cbn [bind].
    apply made_ok in Hsrc.
    destruct (fades_fetch _ _ _ _ m Fm) as [[Hp ->]|[Hp ->]].
    + casea. right. right. left. exists m. split; [assumption|constructor].
    + destruct (fetch_fail _ ms' m Um) as [[mo ->]| ->]; [|casec]. cbn [bind].
      destruct (fades_fetch _ _ _ _ (ls_desc src) Fd) as [[Hq ->]|[Hq ->]].
      * casea. left. exists (ls_desc src). split; [assumption|]. econstructor; [exact Hsrc|reflexivity].
      * destruct (fetch_fail _ ds' (ls_desc src) Ud) as [[v ->]| ->]; [|casec]. cbn [bind].
        destruct (store _ _ _) as [vm [[]|e|u|]]; cbn; try (casec; fail);
          (right; left; split; [no_use|split; [reflexivity|apply shadow_intro; auto using fades_set, full_set]]).
        all: rewrite Hsrc in *.
        all: match goal with H : Some (Some _) = Some (Some _) |- _ => injection H as <- end; contradiction.
  - (* LNotify *)
    cbn [life_step]. destruct (fades_fetch _ _ _ _ m Fm) as [[Hp ->]|[Hp ->]].
    + casea. right. right. left. exists m. split; [assumption|constructor].
    + destruct (fetch ms' m) as [mo|e|u|] eqn:Em; cbn [bind]; try (casec; fail).
      apply fetch_ok in Em. destruct (notify (mo_map mo)) as [events r] eqn:En. rewrite gone_none.
      destruct (existsb (writes_gone gone) events) eqn:Ew.
      * casea. right. right. right. apply gone_some in Ew as (a & v & Ha & Hv). exists a. split; [apply Hg; assumption|].
        apply nv_notify with (mo := mo) (v := v); [exact Em|]. rewrite En. exact Hv.
      * assert (Hno : ~ ptr_uses before (mk_lw ds' qs' ps ss ms' []) (LNotify m)).
        { no_use. rewrite Em in *. match goal with H : Some (Some _) = Some (Some _) |- _ => injection H as <- end.
          rewrite En in *. cbn in *. eapply gone_not; [exact Ew| |eassumption]. apply Hg. assumption. }
        destruct r as [[]|e|u|]; cbn; try (casec; fail);
          (right; left; split; [exact Hno|split; [reflexivity|apply shadow_intro; auto]]).
  - (* LGet *)
    cbn [life_step]. destruct (index_shadow (mk_lw ds' qs' ps ss ms' []) _ ms name Fm fuel m)
      as [[(k & Hk & Hct) Hi]|[[Hno Hi]|[Hi Hbad]]]; rewrite Hi; cbn [lw_maps] in *.
    + casea. right. right. left. exists k. split; [assumption|constructor; assumption].
    + right. left. split; [no_use; apply Hno; eauto|].
      destruct (life_index fuel ms' m name); cbn; try reflexivity. split; [reflexivity|apply shadow_intro; auto].
    + right. right. destruct (life_index fuel ms' m name); cbn in *; tauto.
Qed.

Lemma shadow_end : forall fuel before w w' c, shadow before w w' -> is_end c = true ->
  (ends_once before w' c /\ exists w1, life_step fuel w c = Ok (w1, []) /\ shadow (before ++ [c]) w1 w')
  \/ (~ ends_once before w' c /\ life_step fuel w c = Undef UB_dangling).
Proof.
  intros fuel before [ds qs ps ss ms gone] [ds' qs' ps' ss' ms' gone'] c Hs Hc.
  assert (Hkeep := Hs). destruct Hkeep as (Fd & Ud & Fq & Uq & Ep & Es & Fm & Um & Hg & Eg). cbn in *. subst ps' ss' gone'.
  assert (Hin : forall e, e <> c -> In e before <-> In e (before ++ [c])).
  { intros e He. rewrite in_app_iff. split; [auto|]. intros [Hi|[<-|[]]]; [assumption|contradiction]. }
  assert (Hlast : In c (before ++ [c])) by (apply in_or_app; right; left; reflexivity).
  assert (Hcell : forall A (P : nat -> Prop) (l l' : list (option A)) i, fades P l l' -> full l' ->
            (~ P i /\ i < List.length l' /\ i < List.length l /\ alive l i = Ok tt)
            \/ (~ (~ P i /\ i < List.length l') /\ alive l i = Undef UB_dangling)).
  { intros A P l l' i [Hlen Hf] Hu. unfold alive. destruct (Hf i) as [[Hp ->]|[Hp E]].
    - right. split; [tauto|reflexivity].
    - specialize (Hu i). destruct (nth_error l' i) as [[x|]|] eqn:E'; [|congruence|].
      + left. rewrite E. assert (i < List.length l') by (apply nth_error_Some; congruence). repeat split; try assumption. lia.
      + right. rewrite E. split; [|reflexivity]. intros [_ Hl]. apply nth_error_None in E'. lia. }
  destruct c; try discriminate Hc; cbn [life_step ends_once lw_descs lw_positionals lw_maps].
  - destruct (Hcell _ _ _ _ x Fd Ud) as [(Hp & Hl' & Hl & ->)|[Hn ->]]; [left|right; split; [assumption|reflexivity]].
    split; [split; assumption|]. eexists. split; [reflexivity|]. unfold shadow; cbn.
    split. { eapply fades_ext; [apply fades_end; [exact Fd|assumption]|]. intros j. cbn. destruct (Nat.eq_dec j x) as [->|Hne].
             - split; [intros _; exact Hlast|auto].
             - rewrite <- Hin by congruence. split; [intros [E|H]; [contradiction|assumption]|auto]. }
    split; [assumption|]. split; [eapply fades_ext; [exact Fq|intros j; apply Hin; discriminate]|].
    split; [assumption|]. repeat (split; [reflexivity|]).
    split; [eapply fades_ext; [exact Fm|intros j; apply Hin; discriminate]|]. split; [assumption|].
    split; [|reflexivity]. intros a. rewrite <- Hin by discriminate. apply Hg.
  - destruct (Hcell _ _ _ _ q Fq Uq) as [(Hp & Hl' & Hl & ->)|[Hn ->]]; [left|right; split; [assumption|reflexivity]].
    split; [split; assumption|]. eexists. split; [reflexivity|]. unfold shadow; cbn.
    split; [eapply fades_ext; [exact Fd|intros j; apply Hin; discriminate]|]. split; [assumption|].
    split. { eapply fades_ext; [apply fades_end; [exact Fq|assumption]|]. intros j. cbn. destruct (Nat.eq_dec j q) as [->|Hne].
             - split; [intros _; exact Hlast|auto].
             - rewrite <- Hin by congruence. split; [intros [E|H]; [contradiction|assumption]|auto]. }
    split; [assumption|]. repeat (split; [reflexivity|]).
    split; [eapply fades_ext; [exact Fm|intros j; apply Hin; discriminate]|]. split; [assumption|].
    split; [|reflexivity]. intros a. rewrite <- Hin by discriminate. apply Hg.
  - destruct (Hcell _ _ _ _ m Fm Um) as [(Hp & Hl' & Hl & ->)|[Hn ->]]; [left|right; split; [assumption|reflexivity]].
    split; [split; assumption|]. eexists. split; [reflexivity|]. unfold shadow; cbn.
    split; [eapply fades_ext; [exact Fd|intros j; apply Hin; discriminate]|]. split; [assumption|].
    split; [eapply fades_ext; [exact Fq|intros j; apply Hin; discriminate]|].
    split; [assumption|]. repeat (split; [reflexivity|]).
    split. { eapply fades_ext; [apply fades_end; [exact Fm|assumption]|]. intros j. cbn. destruct (Nat.eq_dec j m) as [->|Hne].
             - split; [intros _; exact Hlast|auto].
             - rewrite <- Hin by congruence. split; [intros [E|H]; [contradiction|assumption]|auto]. }
    split; [assumption|].
    split; [|reflexivity]. intros a. rewrite <- Hin by discriminate. apply Hg.
  - left. split; [exact I|]. eexists. split; [reflexivity|]. unfold shadow; cbn.
    split; [eapply fades_ext; [exact Fd|intros j; apply Hin; discriminate]|]. split; [assumption|].
    split; [eapply fades_ext; [exact Fq|intros j; apply Hin; discriminate]|]. split; [assumption|].
    repeat (split; [reflexivity|]).
    split; [eapply fades_ext; [exact Fm|intros j; apply Hin; discriminate]|]. split; [assumption|].
    split; [|reflexivity]. intros b. destruct (Nat.eq_dec a b) as [->|Hne].
    + split; [intros _; exact Hlast|left; reflexivity].
    + rewrite <- Hin by congruence. rewrite <- Hg. split; [intros [E|H]; [contradiction|assumption]|auto].
Qed.

(** ** Programs *)

Lemma shadow_start : shadow [] life_start life_start.
Proof.
  unfold shadow. cbn.
  assert (F : forall A (P : nat -> Prop), (forall i, ~ P i) -> fades P (@nil (option A)) []).
  { intros A P H. split; [reflexivity|]. intros i. right. split; [apply H|reflexivity]. }
  assert (U : forall A, full (@nil (option A))) by (intros A [|i]; discriminate).
  repeat (split; [first [apply U | apply F; intros i [] | reflexivity]|]). reflexivity.
Qed.

(** The result of a run, without the state. *)
Definition ends_alike (r r' : outcome life_world) : Prop := match r, r' with Ok _, Ok _ => True | Ok _, _ | _, Ok _ => False | _, _ => r' = r end.

Lemma without_ends_cons : forall c cs, without_ends (c :: cs) = if is_end c then without_ends cs else c :: without_ends cs.
Proof. intros c cs. unfold without_ends. cbn. destruct (is_end c); reflexivity. Qed.

Lemma run_shadow : forall fuel cs before w w' xs r, shadow before w w' -> life_run fuel w cs = (xs, r) -> r <> Undef UB_dangling ->
  exists r', life_run fuel w' (without_ends cs) = (xs, r')
    /\ match r with Ok w1 => exists w1', r' = Ok w1' /\ shadow (before ++ cs) w1 w1' | _ => r' = r end.
Proof.
  intros fuel. induction cs as [|c cs IH]; intros before w w' xs r Hs Hrun Hr.
  - cbn in *. injection Hrun as <- <-. exists (Ok w'). split; [reflexivity|]. exists w'. rewrite app_nil_r. split; [reflexivity|assumption].
  - rewrite without_ends_cons. cbn [life_run] in Hrun. destruct (is_end c) eqn:Hc.
    + destruct (shadow_end fuel _ _ _ c Hs Hc) as [(_ & w1 & Hst & Hs1)|[_ Hst]]; rewrite Hst in Hrun.
      2:{ injection Hrun as <- <-. contradiction. }
      destruct (life_run fuel w1 cs) as [ys r1] eqn:E1. injection Hrun as <- <-. cbn [app].
      destruct (IH _ _ _ _ _ Hs1 E1 Hr) as (r' & Hr' & Hm). exists r'. rewrite <- app_assoc in Hm. split; assumption.
    + cbn [life_run]. assert (Hsame : same_result (before ++ [c]) (life_step fuel w c) (life_step fuel w' c)
                     \/ life_step fuel w c = Undef UB_dangling).
      { destruct (step_shadow fuel _ _ _ c Hs Hc) as [[_ H]|[[_ H]|[H _]]]; auto. }
      destruct Hsame as [Hsame|Hst].
      2:{ rewrite Hst in Hrun. injection Hrun as <- <-. contradiction. }
      destruct (life_step fuel w c) as [[w1 ys]|e|u|], (life_step fuel w' c) as [[w1' ys']|e'|u'|]; cbn in Hsame; try contradiction.
      * destruct Hsame as [<- Hs1]. destruct (life_run fuel w1 cs) as [zs r1] eqn:E1. injection Hrun as <- <-.
        destruct (IH _ _ _ _ _ Hs1 E1 Hr) as (r' & Hr' & Hm). rewrite Hr'. exists r'. rewrite <- app_assoc in Hm. split; [reflexivity|assumption].
      * injection Hrun as <- <-. subst e'. eexists. split; reflexivity.
      * injection Hrun as <- <-. subst u'. eexists. split; reflexivity.
      * injection Hrun as <- <-. eexists. split; reflexivity.
Qed.

(** [lives_long_enough] from a state on *)
Definition long_enough (fuel : nat) (before : list life_call) (w' : life_world) (cs : list life_call) : Prop :=
  forall b c after xs w1, cs = b ++ c :: after -> life_run fuel w' (without_ends b) = (xs, Ok w1) ->
    if is_end c then ends_once (before ++ b) w1 c else ~ uses_destroyed (before ++ b) w1 c.

Lemma long_enough_nil : forall fuel before w', long_enough fuel before w' [].
Proof. intros fuel before w' b c after xs w1 H. destruct b; discriminate. Qed.

Lemma long_enough_end : forall fuel before w' c cs, is_end c = true ->
  long_enough fuel before w' (c :: cs) <-> ends_once before w' c /\ long_enough fuel (before ++ [c]) w' cs.
Proof.
  intros fuel before w' c cs Hc. split.
  - intros H. split.
    + specialize (H [] c cs [] w' eq_refl eq_refl). rewrite Hc, app_nil_r in H. exact H.
    + intros b d after xs w1 -> Hr. specialize (H (c :: b) d after xs w1 eq_refl).
      rewrite without_ends_cons, Hc in H. specialize (H Hr). rewrite <- app_assoc. exact H.
  - intros [H1 H2] b d after xs w1 E Hr. destruct b as [|c' b].
    + injection E as <- <-. cbn in Hr. injection Hr as _ <-. rewrite Hc, app_nil_r. exact H1.
    + injection E as <- ->. rewrite without_ends_cons, Hc in Hr. specialize (H2 b d after xs w1 eq_refl Hr).
      rewrite <- app_assoc in H2. exact H2.
Qed.

Lemma long_enough_step : forall fuel before w' c cs w1' ys, is_end c = false -> life_step fuel w' c = Ok (w1', ys) ->
  long_enough fuel before w' (c :: cs) <-> ~ uses_destroyed before w' c /\ long_enough fuel (before ++ [c]) w1' cs.
Proof.
  intros fuel before w' c cs w1' ys Hc Hst. split.
  - intros H. split.
    + specialize (H [] c cs [] w' eq_refl eq_refl). rewrite Hc, app_nil_r in H. exact H.
    + intros b d after xs w1 -> Hr. specialize (H (c :: b) d after (ys ++ xs) w1 eq_refl).
      rewrite without_ends_cons, Hc in H. cbn [life_run] in H. rewrite Hst, Hr in H. specialize (H eq_refl).
      rewrite <- app_assoc. exact H.
  - intros [H1 H2] b d after xs w1 E Hr. destruct b as [|c' b].
    + injection E as <- <-. cbn in Hr. injection Hr as _ <-. rewrite Hc, app_nil_r. exact H1.
    + injection E as <- ->. rewrite without_ends_cons, Hc in Hr. cbn [life_run] in Hr. rewrite Hst in Hr.
      destruct (life_run fuel w1' (without_ends b)) as [zs r] eqn:Ez. injection Hr as <- ->.
      specialize (H2 b d after zs w1 eq_refl Ez). rewrite <- app_assoc in H2. exact H2.
Qed.

(** ** The pointers are what the calls before have told *)

Lemma latest_snoc : forall A (tells : life_call -> option A) before c x,
  latest tells (before ++ [c]) x <-> tells c = Some x \/ (tells c = None /\ latest tells before x).
Proof.
  intros A tells before c x. split.
  - intros (b1 & d & b2 & E & Hd & Hn). destruct b2 as [|e b2] using rev_ind.
    + apply app_inj_tail in E as [<- <-]. left. assumption.
    + clear IHb2. rewrite app_comm_cons, app_assoc in E. apply app_inj_tail in E as [-> <-]. right.
      split; [apply Hn; apply in_or_app; right; left; reflexivity|].
      exists b1, d, b2. split; [reflexivity|]. split; [assumption|]. intros e' He. apply Hn. apply in_or_app. left. assumption.
  - intros [Hc|[Hc (b1 & d & b2 & -> & Hd & Hn)]].
    + exists before, c, []. split; [reflexivity|]. split; [assumption|]. intros d [].
    + exists b1, d, (b2 ++ [c]). split; [rewrite <- app_assoc; reflexivity|]. split; [assumption|].
      intros e He. apply in_app_or in He as [He|[<-|[]]]; auto.
Qed.

Lemma latest_quiet : forall A (tells : life_call -> option A) before c x, tells c = None ->
  latest tells (before ++ [c]) x <-> latest tells before x.
Proof. intros A tells before c x H. rewrite latest_snoc, H. split; [intros [E|[_ E]]; [discriminate|assumption]|auto]. Qed.

Lemma read_with_lt : forall before s x, read_with before s x -> s < List.length (filter makes_source before).
Proof.
  intros before s x (b1 & c & b2 & -> & <- & Hc). rewrite filter_app, app_length. cbn [filter].
  assert (makes_source c = true) as -> by (destruct Hc as [[read ->]|(p & -> & _)]; reflexivity). cbn. lia.
Qed.

Definition reads_from (before : list life_call) (c : life_call) (x : nat) : Prop :=
  (exists read, c = LParse x read) \/ (exists p, c = LRun p /\ latest (options_of p) before x).

Lemma read_with_snoc : forall before c s x,
  read_with (before ++ [c]) s x <-> read_with before s x \/ (List.length (filter makes_source before) = s /\ reads_from before c x).
Proof.
  intros before c s x. split.
  - intros (b1 & d & b2 & E & Hl & Hd). destruct b2 as [|e b2] using rev_ind.
    + apply app_inj_tail in E as [<- <-]. right. split; assumption.
    + clear IHb2. rewrite app_comm_cons, app_assoc in E. apply app_inj_tail in E as [-> <-]. left.
      exists b1, d, b2. repeat split; assumption.
  - intros [(b1 & d & b2 & -> & Hl & Hd)|[Hl Hd]].
    + exists b1, d, (b2 ++ [c]). split; [rewrite <- app_assoc; reflexivity|]. split; assumption.
    + exists before, c, []. split; [reflexivity|]. split; assumption.
Qed.

Definition held_parsers (before : list life_call) (ps : list (option parser_ptr)) : Prop :=
  (forall p lp, nth_error ps p = Some (Some lp) ->
     (forall x, lp_desc lp = Some x <-> latest (options_of p) before x) /\ (forall q, lp_pos lp = Some q <-> latest (positional_of p) before q))
  /\ (forall p, List.length ps <= p -> (forall x, ~ latest (options_of p) before x) /\ (forall q, ~ latest (positional_of p) before q)).

Definition held_sources (before : list life_call) (ss : list (option source_ptr)) : Prop :=
  List.length ss = List.length (filter makes_source before)
  /\ forall s src, nth_error ss s = Some (Some src) -> forall x, ls_desc src = x <-> read_with before s x.

Definition held_maps (before : list life_call) (ms : list (option map_object)) : Prop :=
  (forall m mo, nth_error ms m = Some (Some mo) -> forall n, mo_next mo = Some n <-> latest (next_of m) before (Some n))
  /\ (forall m, List.length ms <= m -> forall n, ~ latest (next_of m) before n).

Definition held (before : list life_call) (w : life_world) : Prop :=
  held_parsers before (lw_parsers w) /\ held_sources before (lw_sources w) /\ held_maps before (lw_maps w).

Lemma parsers_quiet : forall before c ps, (forall p, options_of p c = None) -> (forall p, positional_of p c = None) ->
  held_parsers before ps -> held_parsers (before ++ [c]) ps.
Proof.
  intros before c ps H1 H2 [H3 H4]. split.
  - intros p lp Hp. destruct (H3 p lp Hp) as [Ha Hb]. split; intros x; rewrite latest_quiet by auto; auto.
  - intros p Hp. destruct (H4 p Hp) as [Ha Hb]. split; intros x; rewrite latest_quiet by auto; auto.
Qed.

Lemma parsers_set : forall before ps p lp o, held_parsers before ps -> nth_error ps p = Some (Some lp) ->
  (forall lp', o = Some lp' -> lp_desc lp' = lp_desc lp /\ lp_pos lp' = lp_pos lp) -> held_parsers before (set_cell ps p o).
Proof.
  intros before ps p lp o [H3 H4] Hp Ho. split; [|rewrite set_cell_length; assumption].
  intros k lk Hk. rewrite nth_set_cell in Hk. destruct (Nat.eqb_spec p k) as [<-|Hne]; [|auto].
  rewrite Hp in Hk. injection Hk as ->. destruct (Ho lk eq_refl) as [-> ->]. auto.
Qed.

Lemma parsers_new : forall before ps self, held_parsers before ps -> held_parsers before (ps ++ [Some (mk_lp self None None)]).
Proof.
  intros before ps self [H3 H4]. split.
  - intros p lp Hp. rewrite nth_app_one in Hp. destruct (Nat.eqb_spec p (List.length ps)) as [->|Hne]; [|auto].
    injection Hp as <-. cbn. destruct (H4 (List.length ps) (le_n _)) as [Ha Hb].
    split; intros x; (split; [discriminate|]); intros H; [destruct (Ha _ H)|destruct (Hb _ H)].
  - intros p Hp. rewrite app_length in Hp. cbn in Hp. apply H4. lia.
Qed.

Lemma parsers_options : forall before ps p lp x, held_parsers before ps -> nth_error ps p = Some (Some lp) ->
  held_parsers (before ++ [LOptions p x]) (set_cell ps p (Some (mk_lp (lp_self lp) (Some x) (lp_pos lp)))).
Proof.
  intros before ps p lp x [H3 H4] Hp. split.
  - intros k lk Hk. rewrite nth_set_cell in Hk. destruct (Nat.eqb_spec p k) as [<-|Hne].
    + rewrite Hp in Hk. injection Hk as <-. cbn [lp_desc lp_pos]. split.
      * intros y. rewrite latest_snoc. cbn. rewrite Nat.eqb_refl. split; [auto|]. intros [H|[H _]]; [assumption|discriminate].
      * intros q. rewrite latest_quiet by reflexivity. apply (H3 p lp Hp).
    + destruct (H3 k lk Hk) as [Ha Hb]. split; intros y; rewrite latest_quiet; auto. cbn.
      destruct (Nat.eqb_spec p k); [contradiction|reflexivity].
  - rewrite set_cell_length. intros k Hk. destruct (H4 k Hk) as [Ha Hb]. split; intros y; rewrite latest_quiet; auto. cbn.
    destruct (Nat.eqb_spec p k) as [->|]; [|reflexivity]. assert (k < List.length ps) by (apply nth_error_Some; congruence). lia.
Qed.

Lemma parsers_positional : forall before ps p lp q, held_parsers before ps -> nth_error ps p = Some (Some lp) ->
  held_parsers (before ++ [LPositional p q]) (set_cell ps p (Some (mk_lp (lp_self lp) (lp_desc lp) (Some q)))).
Proof.
  intros before ps p lp x [H3 H4] Hp. split.
  - intros k lk Hk. rewrite nth_set_cell in Hk. destruct (Nat.eqb_spec p k) as [<-|Hne].
    + rewrite Hp in Hk. injection Hk as <-. cbn [lp_desc lp_pos]. split.
      * intros q. rewrite latest_quiet by reflexivity. apply (H3 p lp Hp).
      * intros y. rewrite latest_snoc. cbn. rewrite Nat.eqb_refl. split; [auto|]. intros [H|[H _]]; [assumption|discriminate].
    + destruct (H3 k lk Hk) as [Ha Hb]. split; intros y; rewrite latest_quiet; auto. cbn.
      destruct (Nat.eqb_spec p k); [contradiction|reflexivity].
  - rewrite set_cell_length. intros k Hk. destruct (H4 k Hk) as [Ha Hb]. split; intros y; rewrite latest_quiet; auto. cbn.
    destruct (Nat.eqb_spec p k) as [->|]; [|reflexivity]. assert (k < List.length ps) by (apply nth_error_Some; congruence). lia.
Qed.

Lemma sources_quiet : forall before c ss, makes_source c = false -> held_sources before ss -> held_sources (before ++ [c]) ss.
Proof.
  intros before c ss Hc [H1 H2]. split.
  - rewrite filter_app, app_length. cbn. rewrite Hc. cbn. lia.
  - intros s src Hs x. rewrite read_with_snoc. rewrite (H2 s src Hs x). split; [auto|]. intros [H|[_ [[read ->]|(p & -> & _)]]]; [assumption|discriminate|discriminate].
Qed.

Lemma sources_new : forall before c ss o, makes_source c = true -> held_sources before ss ->
  (forall src, o = Some src -> forall x, ls_desc src = x <-> reads_from before c x) -> held_sources (before ++ [c]) (ss ++ [o]).
Proof.
  intros before c ss o Hc [H1 H2] Ho. split.
  - rewrite filter_app, !app_length. cbn. rewrite Hc. cbn. lia.
  - intros s src Hs x. rewrite nth_app_one in Hs. rewrite read_with_snoc. destruct (Nat.eqb_spec s (List.length ss)) as [->|Hne].
    + injection Hs as ->. rewrite (Ho src eq_refl x). rewrite H1. split; [auto|]. intros [H|[_ H]]; [|assumption].
      apply read_with_lt in H. lia.
    + rewrite (H2 s src Hs x). split; [auto|]. intros [H|[H _]]; [assumption|congruence].
Qed.

Lemma maps_quiet : forall before c ms, (forall m, next_of m c = None) -> held_maps before ms -> held_maps (before ++ [c]) ms.
Proof.
  intros before c ms H1 [H3 H4]. split.
  - intros m mo Hm n. rewrite latest_quiet by auto. eauto.
  - intros m Hm n. rewrite latest_quiet by auto. auto.
Qed.

Lemma maps_set : forall before ms m mo vm, held_maps before ms -> nth_error ms m = Some (Some mo) ->
  held_maps before (set_cell ms m (Some (mk_mo vm (mo_next mo)))).
Proof.
  intros before ms m mo vm [H3 H4] Hm. split; [|rewrite set_cell_length; assumption].
  intros k mk Hk. rewrite nth_set_cell in Hk. destruct (Nat.eqb_spec m k) as [<-|Hne]; [|auto].
  rewrite Hm in Hk. injection Hk as <-. cbn. auto.
Qed.

Lemma maps_new : forall before ms vm, held_maps before ms -> held_maps before (ms ++ [Some (mk_mo vm None)]).
Proof.
  intros before ms vm [H3 H4]. split.
  - intros m mo Hm. rewrite nth_app_one in Hm. destruct (Nat.eqb_spec m (List.length ms)) as [->|Hne]; [|auto].
    injection Hm as <-. cbn. intros n. split; [discriminate|]. intros H. destruct (H4 _ (le_n _) _ H).
  - intros m Hm. rewrite app_length in Hm. cbn in Hm. apply H4. lia.
Qed.

Lemma maps_next : forall before ms m mo n, held_maps before ms -> nth_error ms m = Some (Some mo) ->
  held_maps (before ++ [LNext m n]) (set_cell ms m (Some (mk_mo (mo_map mo) n))).
Proof.
  intros before ms m mo n [H3 H4] Hm. split.
  - intros k mk Hk. rewrite nth_set_cell in Hk. destruct (Nat.eqb_spec m k) as [<-|Hne].
    + rewrite Hm in Hk. injection Hk as <-. cbn [mo_next]. intros y. rewrite latest_snoc. cbn. rewrite Nat.eqb_refl.
      split; [intros ->; auto|]. intros [H|[H _]]; [congruence|discriminate].
    + intros y. rewrite latest_quiet; [eauto|]. cbn. destruct (Nat.eqb_spec m k); [contradiction|reflexivity].
  - rewrite set_cell_length. intros k Hk y. rewrite latest_quiet; [auto|]. cbn.
    destruct (Nat.eqb_spec m k) as [->|]; [|reflexivity]. assert (k < List.length ms) by (apply nth_error_Some; congruence). lia.
Qed.

Lemma held_end : forall before c w, is_end c = true -> held before w -> held (before ++ [c]) w.
Proof.
  intros before c w Hc (Hp & Hs & Hm). destruct c; try discriminate Hc;
    (split; [apply parsers_quiet; auto|split; [apply sources_quiet; auto|apply maps_quiet; auto]]).
Qed.

Lemma held_start : held [] life_start.
Proof.
  assert (L : forall A (tells : life_call -> option A) x, ~ latest tells [] x) by (intros A tells x (b1 & c & b2 & E & _); destruct b1; discriminate).
  split; [|split]; cbn.
  - split; [intros [|p] lp E; discriminate|]. intros p _. split; intros x; apply L.
  - split; [reflexivity|]. intros [|s] src E; discriminate.
  - split; [intros [|m] mo E; discriminate|]. intros m _ n. apply L.
Qed.

Lemma held_step : forall fuel before w c w1 ys, held before w -> life_step fuel w c = Ok (w1, ys) -> is_end c = false -> held (before ++ [c]) w1.
Proof.
  intros fuel before [ds qs ps ss ms gone] c w1 ys (Hp & Hs & Hm) Hst Hc. cbn [lw_parsers lw_sources lw_maps] in *.
  assert (Q : forall ds' qs' gone', (forall p, options_of p c = None) -> (forall p, positional_of p c = None) -> makes_source c = false ->
            (forall m, next_of m c = None) -> held (before ++ [c]) (mk_lw ds' qs' ps ss ms gone')).
  { intros. split; [apply parsers_quiet; auto|split; [apply sources_quiet; auto|apply maps_quiet; auto]]. }
  destruct c; try discriminate Hc; cbn [life_step] in Hst.
  - destruct (life_desc ds c); try discriminate Hst. injection Hst as <- _. apply Q; reflexivity.
  - injection Hst as <- _. apply Q; reflexivity.
  - destruct (fetch qs q); try discriminate Hst. cbn [bind] in Hst. destruct (caught _); try discriminate Hst. injection Hst as <- _. apply Q; reflexivity.
  - injection Hst as <- _. split; [|split]; cbn.
    + apply parsers_quiet; [reflexivity..|]. apply parsers_new. assumption.
    + apply sources_quiet; auto.
    + apply maps_quiet; auto.
  - destruct (made ps p) as [lp|e|u|] eqn:Elp; try discriminate Hst. cbn [bind] in Hst. destruct (fetch ds x); try discriminate Hst.
    injection Hst as <- _. apply made_ok in Elp. split; [|split]; cbn.
    + apply parsers_options; assumption.
    + apply sources_quiet; auto.
    + apply maps_quiet; auto.
  - destruct (made ps p) as [lp|e|u|] eqn:Elp; try discriminate Hst. cbn [bind] in Hst. destruct (fetch qs q); try discriminate Hst.
    injection Hst as <- _. apply made_ok in Elp. split; [|split]; cbn.
    + apply parsers_positional; assumption.
    + apply sources_quiet; auto.
    + apply maps_quiet; auto.
  - destruct (made ps p) as [lp|e|u|] eqn:Elp; try discriminate Hst. cbn [bind] in Hst. destruct (caught _) as [[o r]|e|u|]; try discriminate Hst.
    injection Hst as <- _. apply made_ok in Elp. split; [|split]; cbn.
    + apply parsers_quiet; [reflexivity..|]. destruct o as [p'|]; [|assumption]. eapply parsers_set; [eassumption..|].
      intros lp' E. injection E as <-. split; reflexivity.
    + apply sources_quiet; auto.
    + apply maps_quiet; auto.
  - destruct (made ps p) as [lp|e|u|] eqn:Elp; try discriminate Hst. cbn [bind] in Hst. destruct (caught _) as [[o r]|e|u|]; try discriminate Hst.
    injection Hst as <- _. apply made_ok in Elp.
    assert (Hclear : held (before ++ [LRun p]) (mk_lw ds qs (set_cell ps p None) (ss ++ [None]) ms gone)).
    { split; [|split]; cbn.
      - apply parsers_quiet; [reflexivity..|]. eapply parsers_set; [eassumption..|]. discriminate.
      - apply sources_new; auto. discriminate.
      - apply maps_quiet; auto. }
    cbn [fst]. destruct o as [[src p']|]; [|assumption]. destruct (lp_desc lp) as [x|] eqn:Ex; [|assumption].
    split; [|split]; cbn.
    + apply parsers_quiet; [reflexivity..|]. eapply parsers_set; [eassumption..|]. intros lp' E. injection E as <-. cbn. auto.
    + apply sources_new; auto. intros src' E y. injection E as <-. cbn. unfold reads_from. split.
      * intros <-. right. exists p. split; [reflexivity|]. apply (proj1 Hp p lp Elp). assumption.
      * intros [[read E]|(p2 & E & Hl)]; [discriminate|]. injection E as <-. apply (proj1 Hp p lp Elp) in Hl. congruence.
    + apply maps_quiet; auto.
  - destruct (fetch ds x); try discriminate Hst. cbn [bind] in Hst. destruct (caught _) as [[o r]|e|u|]; try discriminate Hst.
    injection Hst as <- _. split; [|split]; cbn.
    + apply parsers_quiet; auto.
    + apply sources_new; auto. intros src' E y. destruct o as [src|]; [|discriminate]. injection E as <-. cbn. unfold reads_from. split.
      * intros <-. left. eauto.
      * intros [[read' E]|(p2 & E & Hl)]; [|discriminate]. congruence.
    + apply maps_quiet; auto.
  - injection Hst as <- _. split; [|split]; cbn.
    + apply parsers_quiet; auto.
    + apply sources_quiet; auto.
    + apply maps_quiet; [reflexivity|]. apply maps_new. assumption.
  - destruct (fetch ms m) as [mo|e|u|] eqn:Em; try discriminate Hst. cbn [bind] in Hst. destruct (fetch_opt ms n); try discriminate Hst.
    injection Hst as <- _. apply fetch_ok in Em. split; [|split]; cbn.
    + apply parsers_quiet; auto.
    + apply sources_quiet; auto.
    + apply maps_next; assumption.
  - destruct (made ss s) as [src|e|u|]; try discriminate Hst. cbn [bind] in Hst.
    destruct (fetch ms m) as [mo|e|u|] eqn:Em; try discriminate Hst. cbn [bind] in Hst. destruct (fetch ds _); try discriminate Hst. cbn [bind] in Hst.
    apply fetch_ok in Em. destruct (store _ _ _) as [vm [[]|e|u|]]; try discriminate Hst; injection Hst as <- _;
      (split; [|split]; cbn; [apply parsers_quiet; auto|apply sources_quiet; auto|apply maps_quiet; [reflexivity|]; apply maps_set; assumption]).
  - destruct (fetch ms m) as [mo|e|u|] eqn:Em; try discriminate Hst. cbn [bind] in Hst. destruct (notify _) as [ev r].
    destruct (existsb _ _); [discriminate|]. destruct r; try discriminate Hst; injection Hst as <- _; apply Q; reflexivity.
  - destruct (life_index fuel ms m name); try discriminate Hst. injection Hst as <- _. apply Q; reflexivity.
Qed.

Lemma held_run : forall fuel cs before w xs w1, held before w -> life_run fuel w (without_ends cs) = (xs, Ok w1) -> held (before ++ cs) w1.
Proof.
  intros fuel. induction cs as [|c cs IH]; intros before w xs w1 Hh Hrun.
  - cbn in Hrun. injection Hrun as _ <-. rewrite app_nil_r. assumption.
  - rewrite without_ends_cons in Hrun. replace (before ++ c :: cs) with ((before ++ [c]) ++ cs) by (rewrite <- app_assoc; reflexivity).
    destruct (is_end c) eqn:Hc.
    + eapply IH; [apply held_end; eassumption|exact Hrun].
    + cbn [life_run] in Hrun. destruct (life_step fuel w c) as [[w2 ys]|e|u|] eqn:Hst; try discriminate Hrun.
      destruct (life_run fuel w2 (without_ends cs)) as [zs r] eqn:E. injection Hrun as _ ->.
      eapply IH; [eapply held_step; eassumption|exact E].
Qed.

Lemma comes_to_ptr : forall before w name m k, held before w -> comes_to before w name m k <-> ptr_comes_to w name m k.
Proof.
  intros before w name m k (_ & _ & Hm). split.
  - induction 1 as [|m mo n k E Hn Hx _ IH]; [constructor|].
    apply pct_next with (mo := mo) (n := n); [assumption| |assumption|assumption]. apply (proj1 Hm m mo E). assumption.
  - induction 1 as [|m mo n k E Hn Hx _ IH]; [constructor|].
    apply ct_next with (mo := mo) (n := n); [assumption| |assumption|assumption]. apply (proj1 Hm m mo E). assumption.
Qed.

Lemma uses_ptr : forall fuel before w c, held before w -> is_ok (life_step fuel w c) ->
  uses_destroyed before w c <-> ptr_uses before w c.
Proof.
  intros fuel before w c Hh Hok. assert (Hk := Hh). destruct Hk as (Hp & Hs & Hm).
  assert (HR : forall p, c = LRun p -> exists lp, nth_error (lw_parsers w) p = Some (Some lp)).
  { intros p ->. destruct w as [ds qs ps ss ms gone]. cbn [life_step lw_parsers] in *. destruct (made ps p) eqn:E; try contradiction Hok.
    exists a. apply made_ok. assumption. }
  assert (HS : forall s m utf8, c = LStore s m utf8 -> exists src, nth_error (lw_sources w) s = Some (Some src)).
  { intros s m utf8 ->. destruct w as [ds qs ps ss ms gone]. cbn [life_step lw_sources] in *. destruct (made ss s) eqn:E; try contradiction Hok.
    exists a. apply made_ok. assumption. }
  assert (HD : forall x, needs_desc before x c <-> ptr_desc w x c).
  { intros x. split; intros H; inversion H; subst; try constructor.
    - destruct (HR p eq_refl) as (lp & Elp). econstructor; [exact Elp|]. apply (proj1 Hp p lp Elp). assumption.
    - destruct (HS s m utf8 eq_refl) as (src & Es). econstructor; [exact Es|]. apply (proj2 Hs s src Es). assumption.
    - apply (proj1 Hp p lp H0). assumption.
    - apply (proj2 Hs s src H0). reflexivity. }
  assert (HQ : forall q, needs_pos before q c <-> ptr_pos w q c).
  { intros q. split; intros H; inversion H; subst; try constructor.
    - destruct (HR p eq_refl) as (lp & Elp). econstructor; [exact Elp|]. apply (proj1 Hp p lp Elp). assumption.
    - apply (proj1 Hp p lp H0). assumption. }
  assert (HM : forall k, needs_map before w k c <-> ptr_map w k c).
  { intros k. split; intros H; inversion H; subst; constructor.
    - apply (comes_to_ptr before w name m k Hh). assumption.
    - apply (comes_to_ptr before w name m k Hh). assumption. }
  unfold uses_destroyed, ptr_uses. split; intros [(x & Hi & Hn)|[(x & Hi & Hn)|[(x & Hi & Hn)|H]]]; auto;
    [left|right; left|right; right; left|left|right; left|right; right; left]; exists x; (split; [assumption|]);
    first [apply HD | apply HQ | apply HM]; assumption.
Qed.

Lemma run_exact : forall fuel cs before w w' xs w1', shadow before w w' -> held before w' ->
  life_run fuel w' (without_ends cs) = (xs, Ok w1') ->
  (long_enough fuel before w' cs /\ exists w1, life_run fuel w cs = (xs, Ok w1))
  \/ (~ long_enough fuel before w' cs /\ exists ys zs, xs = ys ++ zs /\ life_run fuel w cs = (ys, Undef UB_dangling)).
Proof.
  intros fuel. induction cs as [|c cs IH]; intros before w w' xs w1' Hs Hh Hrun.
  - left. split; [apply long_enough_nil|]. cbn in Hrun |- *. injection Hrun as <- _. eexists. reflexivity.
  - rewrite without_ends_cons in Hrun. cbn [life_run]. destruct (is_end c) eqn:Hc.
    + rewrite long_enough_end by assumption.
      destruct (shadow_end fuel _ _ _ c Hs Hc) as [(Ho & w1 & Hst & Hs1)|[Ho Hst]]; rewrite Hst.
      * destruct (IH _ _ _ _ _ Hs1 (held_end _ _ _ Hc Hh) Hrun) as [(Hl & w2 & ->)|(Hl & ys & zs & -> & ->)].
        -- left. split; [split; assumption|]. eexists. reflexivity.
        -- right. split; [tauto|]. exists ys, zs. split; reflexivity.
      * right. split; [tauto|]. exists [], xs. split; reflexivity.
    + cbn [life_run] in Hrun. destruct (life_step fuel w' c) as [[w2' ys]|e|u|] eqn:Hst'; try discriminate Hrun.
      destruct (life_run fuel w2' (without_ends cs)) as [xs2 r2] eqn:E2. injection Hrun as <- ->.
      rewrite (long_enough_step _ _ _ _ _ _ _ Hc Hst').
      assert (Hptr : uses_destroyed before w' c <-> ptr_uses before w' c) by (apply uses_ptr with (fuel := fuel); [assumption|rewrite Hst'; exact I]).
      destruct (step_shadow fuel _ _ _ c Hs Hc) as [[Hu Hst]|[[Hu Hsame]|[_ Hbad]]].
      * right. split; [tauto|]. rewrite Hst. exists [], (ys ++ xs2). split; reflexivity.
      * rewrite Hst' in Hsame. destruct (life_step fuel w c) as [[w2 ys']|e|u|]; cbn in Hsame; try contradiction.
        destruct Hsame as [-> Hs2].
        destruct (IH _ _ _ _ _ Hs2 (held_step _ _ _ _ _ _ Hh Hst' Hc) E2) as [(Hl & w3 & ->)|(Hl & ys1 & zs & -> & ->)].
        -- left. split; [split; [tauto|assumption]|]. eexists. reflexivity.
        -- right. split; [tauto|]. exists (ys ++ ys1), zs. split; [apply app_assoc|reflexivity].
      * rewrite Hst' in Hbad. cbn in Hbad. tauto.
Qed.

(** ** Maps left alone *)

Lemma step_leaves : forall fuel w c w1 ys m mo, life_step fuel w c = Ok (w1, ys) -> leaves_map m c ->
  nth_error (lw_maps w) m = Some (Some mo) -> nth_error (lw_maps w1) m = Some (Some mo).
Proof.
  intros fuel [ds qs ps ss ms gone] c w1 ys m mo Hst Hl Hm. cbn in Hm.
  assert (Hset : forall k x, k <> m -> nth_error (set_cell ms k x) m = Some (Some mo)).
  { intros k x Hk. rewrite nth_set_cell. destruct (Nat.eqb_spec k m); [contradiction|assumption]. }
  destruct c; cbn [life_step leaves_map] in *;
    repeat match type of Hst with
    | bind ?r _ = _ => destruct r; cbn [bind] in Hst; try discriminate Hst
    end;
    try (injection Hst as <- _; cbn; (assumption || apply Hset; assumption)).
  - injection Hst as <- _. repeat match goal with |- context [match ?x with _ => _ end] => destruct x end; cbn; assumption.
  - injection Hst as <- _. cbn. rewrite nth_app_one. destruct (Nat.eqb_spec m (List.length ms)) as [->|]; [|assumption].
    assert (List.length ms < List.length ms) by (apply nth_error_Some; congruence). lia.
  - destruct (store _ _ _) as [vm [[]|e|u|]]; try discriminate Hst; injection Hst as <- _; cbn; apply Hset; assumption.
  - destruct (notify _) as [ev r]. destruct (existsb _ _); [discriminate|]. destruct r; try discriminate Hst; injection Hst as <- _; cbn; assumption.
Qed.

Lemma run_leaves : forall fuel cs w xs w1 m mo, life_run fuel w cs = (xs, Ok w1) -> Forall (leaves_map m) cs ->
  nth_error (lw_maps w) m = Some (Some mo) -> nth_error (lw_maps w1) m = Some (Some mo).
Proof.
  intros fuel. induction cs as [|c cs IH]; intros w xs w1 m mo Hrun Hl Hm.
  - cbn in Hrun. injection Hrun as _ <-. assumption.
  - cbn [life_run] in Hrun. destruct (life_step fuel w c) as [[w2 ys]|e|u|] eqn:Hst; try discriminate Hrun.
    destruct (life_run fuel w2 cs) as [zs r] eqn:E. injection Hrun as _ ->.
    eapply IH; [exact E|exact (Forall_inv_tail Hl)|]. eapply step_leaves; [exact Hst|exact (Forall_inv Hl)|assumption].
Qed.

Lemma step_gone : forall fuel w c w1 ys, life_step fuel w c = Ok (w1, ys) ->
  (forall a, c <> LEndVariable a) -> lw_gone w1 = lw_gone w.
Proof.
  intros fuel [ds qs ps ss ms gone] c w1 ys Hst Hn.
  destruct c; cbn [life_step] in *;
    repeat match type of Hst with
    | bind ?r _ = _ => destruct r; cbn [bind] in Hst; try discriminate Hst
    end;
    try (injection Hst as <- _; reflexivity).
  - injection Hst as <- _. repeat match goal with |- context [match ?x with _ => _ end] => destruct x end; reflexivity.
  - destruct (store _ _ _) as [vm [[]|e|u|]]; try discriminate Hst; injection Hst as <- _; reflexivity.
  - destruct (notify _) as [ev r]. destruct (existsb _ _); [discriminate|]. destruct r; try discriminate Hst; injection Hst as <- _; reflexivity.
  - exfalso. eapply Hn. reflexivity.
Qed.

Lemma run_gone : forall fuel cs w xs w1, life_run fuel w cs = (xs, Ok w1) ->
  (forall a, ~ In (LEndVariable a) cs) -> lw_gone w1 = lw_gone w.
Proof.
  intros fuel. induction cs as [|c cs IH]; intros w xs w1 Hrun Hn.
  - cbn in Hrun. injection Hrun as _ <-. reflexivity.
  - cbn [life_run] in Hrun. destruct (life_step fuel w c) as [[w2 ys]|e|u|] eqn:Hst; try discriminate Hrun.
    destruct (life_run fuel w2 cs) as [zs r] eqn:E. injection Hrun as _ ->.
    rewrite (IH _ _ _ E) by (intros a Ha; apply (Hn a); right; assumption).
    eapply step_gone; [exact Hst|]. intros a ->. apply (Hn a). left. reflexivity.
Qed.
