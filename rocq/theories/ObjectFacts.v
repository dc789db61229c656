(** Facts about objects with identity. *)

From Coq Require Import List Ascii NArith ZArith Bool Arith Lia.
From Verif Require Import Base Errors Spec BaseFacts Values OptDesc SpecLookup Positional Cmdline Parsers VarMap Objects
  SpecStore StoreFacts SemFacts SpecEnd EndFacts SpecObjects.
Import ListNotations.

(** ** [as] *)

Lemma as_value t v x : vv_as t v = Ok x <-> vv_value v = Some x /\ value_ty x = t.
Proof.
  unfold vv_as, any_cast. destruct (vv_value v) as [y|].
  - destruct (vty_eqb (value_ty y) t) eqn:E.
    + apply vty_eqb_eq in E. split; [intros H; injection H as <-; auto|intros [H _]; congruence].
    + split; [discriminate|]. intros [H <-]. injection H as <-. now rewrite vty_eqb_refl in E.
  - split; [discriminate|intros [H _]; discriminate].
Qed.

Lemma as_other t v : (forall x, vv_value v = Some x -> value_ty x <> t) -> vv_as t v = Throw (plain_exn bad_any_cast).
Proof.
  intros H. unfold vv_as, any_cast. destruct (vv_value v) as [y|]; auto.
  destruct (vty_eqb (value_ty y) t) eqn:E; auto. apply vty_eqb_eq in E. exfalso. now apply (H y).
Qed.

Lemma stores_calls vm h vm' : stores vm h vm' -> calls vm h vm'.
Proof. induction 1; econstructor; eauto. Qed.

Lemma typed_new ty : typed_map ty (vm_map vm_new).
Proof. intros name v E. discriminate. Qed.

Lemma stored_as ty h vm name v :
  stores vm_new h vm -> consistent ty h -> name <> [] -> entry vm name = Some v ->
  exists x, vv_value v = Some x /\ value_ty x = ty name.
Proof.
  intros H Hc Hne Hv. pose proof (calls_typed ty _ _ _ (stores_calls _ _ _ H) Hc (typed_new ty)) as Ht.
  destruct (Ht name v Hv) as [Hf Hs].
  destruct (stores_origin _ _ _ _ _ H Hne Hv) as [E|(p & u & ds & d & _ & _ & _ & Es & _)]; [discriminate|].
  destruct (Hs _ Es) as [_ Hn]. destruct (vv_value v) as [x|]; [|congruence]. exists x. auto.
Qed.

Lemma chain_value (P : variable_value -> Prop) vm next name :
  Forall (fun m => P (vm_get m name)) (vm :: next) -> P (chain_get vm next name).
Proof.
  revert vm. induction next as [|vm2 next IH]; intros vm H; inversion H as [|m l Hm Hl]; subst; cbn [chain_get]; auto.
  specialize (IH vm2 Hl). repeat match goal with |- context [if ?b then _ else _] => destruct b end; auto.
Qed.

Lemma chain_nonempty vm next name :
  Exists (fun m => vv_value (vm_get m name) <> None) (vm :: next) -> vv_value (chain_get vm next name) <> None.
Proof.
  revert vm. induction next as [|vm2 next IH]; intros vm H.
  - inversion H as [m l Hm|m l Hl]; subst; auto. inversion Hl.
  - cbn [chain_get]. destruct (vv_value (vm_get vm name)) as [x|] eqn:E; cbn [any_empty].
    + destruct (vv_defaulted (vm_get vm name)); [|congruence].
      destruct (any_empty (vv_value (chain_get vm2 next name))) eqn:E2; cbn [negb andb]; [congruence|].
      destruct (vv_defaulted (chain_get vm2 next name)); cbn [negb]; [congruence|].
      destruct (vv_value (chain_get vm2 next name)); discriminate.
    + apply IH. inversion H as [m l Hm|m l Hl]; subst; auto.
Qed.

(** ** Cells *)

Lemma set_cell_length {A} (mem : list A) a x : length (set_cell mem a x) = length mem.
Proof. revert a. induction mem as [|y mem IH]; intros [|a]; cbn; auto. Qed.

Lemma set_cell_same {A} (mem : list A) a x : a < length mem -> nth_error (set_cell mem a x) a = Some x.
Proof. revert a. induction mem as [|y mem IH]; intros [|a] H; cbn in *; try lia; auto. apply IH. lia. Qed.

Lemma set_cell_other {A} (mem : list A) a x b : a <> b -> nth_error (set_cell mem a x) b = nth_error mem b.
Proof. revert a b. induction mem as [|y mem IH]; intros [|a] [|b] H; cbn; auto; congruence. Qed.

Lemma nth_lt {A} (l : list A) n x : nth_error l n = Some x -> n < length l.
Proof. intros H. apply nth_error_Some. congruence. Qed.

(** ** Maps *)

Lemma index_explicit mem name n : forall a b mo fuel,
  leads mem a n b -> nth_error mem b = Some mo -> explicit (vm_get (mo_map mo) name) ->
  (forall k c, k < n -> leads mem a k c -> ~ explicit_at mem c name) -> n < fuel ->
  map_index fuel mem a name = Ok (vm_get (mo_map mo) name).
Proof.
  induction n as [|n IH]; intros a b mo fuel Hl Hb He Hno Hfuel; (destruct fuel as [|fuel]; [lia|]).
  - inversion Hl; subst. cbn [map_index]. rewrite Hb. destruct He as [H1 H2]. rewrite H2.
    destruct (vv_value (vm_get (mo_map mo) name)) eqn:Ev; [|congruence]. cbn [any_empty]. now destruct (mo_next mo).
  - inversion Hl as [|a0 mo0 a' n0 b0 Ha Hn Hl']; subst. cbn [map_index]. rewrite Ha, Hn.
    rewrite (IH a' b mo fuel Hl' Hb He) by first [lia | intros k c Hk Hc; apply (Hno (S k)); [lia|econstructor; eauto]].
    assert (Hx : ~ explicit (vm_get (mo_map mo0) name)).
    { intros Hx. apply (Hno 0 a); [lia|constructor|]. exists mo0. auto. }
    destruct (vv_value (vm_get (mo_map mo0) name)) as [x|] eqn:Ev; cbn [any_empty]; auto.
    destruct (vv_defaulted (vm_get (mo_map mo0) name)) eqn:Ed.
    + cbn [bind]. destruct He as [H1 H2]. rewrite H2. destruct (vv_value (vm_get (mo_map mo) name)) eqn:Ev2; [reflexivity|congruence].
    + exfalso. apply Hx. split; congruence.
Qed.

Lemma index_links mem name : forall a vm next, links mem a (vm :: next) -> forall fuel, length next < fuel ->
  map_index fuel mem a name = Ok (chain_get vm next name).
Proof.
  intros a vm next H. remember (vm :: next) as l eqn:El. revert vm next El.
  induction H as [a mo Ha Hn|a mo b l Ha Hn Hl IH]; intros vm next El fuel Hf; injection El as <- <-;
    (destruct fuel as [|fuel]; [lia|]); cbn [map_index]; rewrite Ha, Hn.
  - reflexivity.
  - destruct l as [|vm2 next]; [inversion Hl|]. cbn [chain_get]. cbn [length] in Hf.
    rewrite (IH vm2 next eq_refl) by lia. cbn [bind].
    destruct (any_empty (vv_value (vm_get (mo_map mo) name))); auto.
    destruct (vv_defaulted (vm_get (mo_map mo) name)); auto.
Qed.

Lemma index_endless mem name fuel : forall a,
  (forall n, exists b mo, leads mem a n b /\ nth_error mem b = Some mo /\ mo_next mo <> None
     /\ ~ explicit (vm_get (mo_map mo) name)) ->
  map_index fuel mem a name = NoFuel.
Proof.
  induction fuel as [|fuel IH]; intros a H; [reflexivity|].
  destruct (H 0) as (b & mo & Hl & Hb & Hn & Hx). inversion Hl; subst. cbn [map_index]. rewrite Hb.
  destruct (mo_next mo) as [a'|] eqn:En; [|congruence].
  rewrite (IH a').
  - destruct (vv_value (vm_get (mo_map mo) name)) eqn:Ev; cbn [any_empty]; auto.
    destruct (vv_defaulted (vm_get (mo_map mo) name)) eqn:Ed; auto.
    exfalso. apply Hx. split; congruence.
  - intros n. destruct (H (S n)) as (c & mo' & Hl' & Hc). exists c, mo'. split; auto.
    inversion Hl' as [|a0 mo0 a1 n0 b0 Ha0 Hn0 Hl0]; subst. congruence.
Qed.

Lemma leads_fun mem n : forall a b c, leads mem a n b -> leads mem a n c -> b = c.
Proof.
  induction n as [|n IH]; intros a b c H1 H2; inversion H1; inversion H2; subst; auto.
  assert (a' = a'0) by congruence. subst. eauto.
Qed.

(** ** Descriptions *)

Scheme views_ind2 := Minimality for views Sort Prop
  with views_all_ind2 := Minimality for views_all Sort Prop.
Combined Scheme views_mind from views_ind2, views_all_ind2.

(** The objects that a program reaches through groups only. *)
Definition inner (m : desc_memory) (g : nat) : Prop := g < length (dm_cells m) /\ ~ In g (dm_vars m).

Record sound (m : desc_memory) : Prop := {
  sd_vars : forall p, In p (dm_vars m) -> p < length (dm_cells m);
  sd_nodup : NoDup (dm_vars m);
  sd_groups : forall p o g, nth_error (dm_cells m) p = Some o -> In g (do_groups o) -> inner m g }.

Lemma views_all_Forall2 cells ps ts : views_all cells ps ts <-> Forall2 (views cells) ps ts.
Proof.
  split.
  - induction 1; constructor; auto.
  - induction 1; constructor; auto.
Qed.

Lemma views_ext cells cells' :
  (forall p t, views cells p t ->
     (forall q o, nth_error cells q = Some o -> nth_error cells' q = Some o) -> views cells' p t).
Proof.
  intros p t H He.
  apply (views_ind2 cells (fun p t => views cells' p t) (fun ps ts => views_all cells' ps ts)); auto.
  - intros q o ts Hq _ IH. econstructor; eauto.
  - constructor.
  - intros; constructor; auto.
Qed.

(** Cells in a set closed under groups keep their views, if no cell of the set changes. *)
Lemma views_closed cells cells' (S : nat -> Prop) :
  (forall q o g, S q -> nth_error cells q = Some o -> In g (do_groups o) -> S g) ->
  (forall q o, S q -> nth_error cells q = Some o -> nth_error cells' q = Some o) ->
  forall p t, views cells p t -> S p -> views cells' p t.
Proof.
  intros Hc He p t H.
  apply (views_ind2 cells (fun p t => S p -> views cells' p t)
           (fun ps ts => (forall g, In g ps -> S g) -> views_all cells' ps ts)); auto.
  - intros q o ts Hq _ IH Hs. econstructor; [now apply He|]. apply IH. intros g Hg. eapply Hc; eauto.
  - constructor.
  - intros q t0 ps ts _ IH1 _ IH2 Hs. constructor; [apply IH1, Hs; now left|apply IH2; intros g Hg; apply Hs; now right].
Qed.

Lemma views_all_closed cells cells' (S : nat -> Prop) :
  (forall q o g, S q -> nth_error cells q = Some o -> In g (do_groups o) -> S g) ->
  (forall q o, S q -> nth_error cells q = Some o -> nth_error cells' q = Some o) ->
  forall ps ts, views_all cells ps ts -> (forall g, In g ps -> S g) -> views_all cells' ps ts.
Proof.
  intros Hc He ps ts H. induction H as [|p t ps ts Hp _ IH]; intros Hs; constructor.
  - eapply views_closed; eauto. apply Hs. now left.
  - apply IH. intros g Hg. apply Hs. now right.
Qed.

Lemma views_inv cells p t o : views cells p t -> nth_error cells p = Some o ->
  exists ts, views_all cells (do_groups o) ts
  /\ t = mk_ods (do_caption o) (do_line_length o) (do_min_description_length o) (do_options o) ts.
Proof. intros H Ho. inversion H as [p0 o0 ts Hp Hts]; subst. rewrite Ho in Hp. injection Hp as <-. eauto. Qed.

Lemma views_fun cells : forall p t, views cells p t -> forall t', views cells p t' -> t = t'.
Proof.
  intros p t H.
  apply (views_ind2 cells (fun p t => forall t', views cells p t' -> t = t')
           (fun ps ts => forall ts', views_all cells ps ts' -> ts = ts')); auto.
  - intros q o ts Hq _ IH t' H'. destruct (views_inv _ _ _ _ H' Hq) as (ts' & Hts & ->). now rewrite (IH ts' Hts).
  - intros ts' H'. now inversion H'.
  - intros q t0 ps ts _ IH1 _ IH2 ts' H'. inversion H'; subst. f_equal; auto.
Qed.

Lemma add_loop_app l : forall acc, add_loop acc l = acc ++ map (fun d => (fst d, true)) l.
Proof.
  induction l as [|[d g] l IH]; intros acc; cbn; [now rewrite app_nil_r|]. rewrite IH, <- app_assoc. reflexivity.
Qed.

Lemma skipn_nth {A} (l : list A) : forall i x, nth_error l i = Some x -> skipn i l = x :: skipn (S i) l.
Proof. induction l as [|y l IH]; intros [|i] x H; cbn in *; try discriminate; [congruence|]. now apply IH. Qed.

(** The loop of [a.add(b)] for different objects *)
Lemma add_cells_spec a b ob : a <> b -> forall n fuel cells oa i,
  nth_error cells a = Some oa -> nth_error cells b = Some ob ->
  i + n = length (do_options ob) -> n < fuel ->
  exists oa', add_cells fuel cells a b i = Ok (set_cell cells a oa')
  /\ do_caption oa' = do_caption oa /\ do_line_length oa' = do_line_length oa
  /\ do_min_description_length oa' = do_min_description_length oa /\ do_groups oa' = do_groups oa
  /\ do_options oa' = do_options oa ++ map (fun d => (fst d, true)) (skipn i (do_options ob)).
Proof.
  intros Hab n. induction n as [|n IH]; intros fuel cells oa i Ha Hb Hi Hf; (destruct fuel as [|fuel]; [lia|]);
    cbn [add_cells]; rewrite Ha, Hb.
  - destruct (nth_error (do_options ob) i) as [[d g]|] eqn:E; [apply nth_lt in E; lia|].
    exists oa. split.
    + f_equal. apply nth_error_split in Ha. destruct Ha as (l1 & l2 & -> & <-). clear.
      induction l1; cbn; congruence.
    + rewrite skipn_all2 by lia. cbn. rewrite app_nil_r. auto.
  - destruct (nth_error (do_options ob) i) as [[d g]|] eqn:E; [|apply nth_error_None in E; lia].
    destruct (IH fuel (set_cell cells a (do_add oa d true)) (do_add oa d true) (S i)) as (oa' & H1 & H2 & H3 & H4 & H5 & H6).
    + apply set_cell_same. eapply nth_lt; eauto.
    + rewrite set_cell_other by auto. exact Hb.
    + lia.
    + lia.
    + exists oa'. rewrite H1. split.
      * f_equal. clear -a. revert a. induction cells as [|y cells IHc]; intros [|a]; cbn; try reflexivity. f_equal. apply IHc.
      * cbn [do_add do_caption do_line_length do_min_description_length do_groups do_options] in *.
        repeat (split; [assumption|]). rewrite H6, <- app_assoc. f_equal. cbn [app].
        now rewrite (skipn_nth _ _ _ E).
Qed.

(** A description added to itself *)
Lemma add_cells_self a : forall fuel cells o i, nth_error cells a = Some o -> i < length (do_options o) ->
  add_cells fuel cells a a i = NoFuel.
Proof.
  induction fuel as [|fuel IH]; intros cells o i Ha Hi; [reflexivity|]. cbn [add_cells]. rewrite Ha.
  destruct (nth_error (do_options o) i) as [[d g]|] eqn:E; [|apply nth_error_None in E; lia].
  apply (IH _ (do_add o d true)).
  - apply set_cell_same. eapply nth_lt; eauto.
  - cbn. rewrite app_length. cbn. lia.
Qed.

Lemma add_cells_eq a b oa ob fuel cells : a <> b ->
  nth_error cells a = Some oa -> nth_error cells b = Some ob -> length (do_options ob) < fuel ->
  add_cells fuel cells a b 0
  = Ok (set_cell cells a (mk_do (do_caption oa) (do_line_length oa) (do_min_description_length oa)
                            (add_loop (do_options oa) (do_options ob)) (do_groups oa))).
Proof.
  intros Hab Ha Hb Hf.
  destruct (add_cells_spec a b ob Hab (length (do_options ob)) fuel cells oa 0 Ha Hb) as ([c ll mi os gs] & -> & H); [lia|lia|].
  cbn in H. destruct H as (-> & -> & -> & -> & ->). now rewrite add_loop_app.
Qed.

Lemma set_cell_twice {A} (l : list A) : forall a x y, set_cell (set_cell l a x) a y = set_cell l a y.
Proof. induction l as [|z l IH]; intros [|a] x y; cbn; auto. now rewrite IH. Qed.

Lemma set_cell_app {A} (l l' : list A) : forall a x, a < length l -> set_cell (l ++ l') a x = set_cell l a x ++ l'.
Proof. induction l as [|z l IH]; intros [|a] x H; cbn in *; try lia; auto. rewrite IH; auto. lia. Qed.

Lemma Forall2_set {A B} (R R' : A -> B -> Prop) l l' : Forall2 R l l' -> NoDup l -> forall a p v,
  nth_error l a = Some p -> (forall q t, In q l -> q <> p -> R q t -> R' q t) -> R' p v -> Forall2 R' l (set_cell l' a v).
Proof.
  induction 1 as [|x y l l' Hxy Hl IH]; intros Hd [|a] p v Ha Hq Hv; try discriminate; inversion Hd as [|x0 l0 Hni Hnd]; subst; cbn in *.
  - injection Ha as ->. constructor; auto. clear -Hl Hq Hni. induction Hl as [|q t l l' Hqt Hl IHl]; constructor.
    + apply Hq; [right; now left| |exact Hqt]. intros E. apply Hni. now left.
    + apply IHl; [|intros H; apply Hni; now right]. intros q' t' Hi. apply Hq. destruct Hi; [now left|right; now right].
  - constructor.
    + apply Hq; [now left| |exact Hxy]. intros E. subst x. apply Hni. eapply nth_error_In; eauto.
    + apply (IH Hnd a p v); auto.
Qed.

Lemma Forall2_mono {A B} (R R' : A -> B -> Prop) l l' : Forall2 R l l' -> (forall x y, In x l -> R x y -> R' x y) -> Forall2 R' l l'.
Proof. induction 1; intros Hi; constructor; [apply Hi; auto; now left|apply IHForall2; intros; apply Hi; auto; now right]. Qed.

Lemma Forall2_nth {A B} (R : A -> B -> Prop) l l' : Forall2 R l l' -> forall a y, nth_error l' a = Some y ->
  exists x, nth_error l a = Some x /\ R x y.
Proof. induction 1; intros [|a] z Hz; cbn in *; try discriminate; eauto. injection Hz as <-. eauto. Qed.

Lemma Forall2_nth1 {A B} (R : A -> B -> Prop) l l' : Forall2 R l l' -> forall a x, nth_error l a = Some x ->
  exists y, nth_error l' a = Some y /\ R x y.
Proof. induction 1; intros [|a] z Hz; cbn in *; try discriminate; eauto. injection Hz as <-. eauto. Qed.

(** Cells but that of one variable are as before. *)
Lemma update_views m p cells' : sound m -> In p (dm_vars m) ->
  (forall q o, q <> p -> nth_error (dm_cells m) q = Some o -> nth_error cells' q = Some o) ->
  forall q t, q <> p -> views (dm_cells m) q t -> views cells' q t.
Proof.
  intros Hs Hp He q t Hq H.
  apply (views_closed (dm_cells m) cells' (fun g => g <> p)) with (p := q) (t := t); auto.
  intros q' o g _ Ho Hg E. subst g. destruct (sd_groups m Hs _ _ _ Ho Hg) as [_ Hi]. contradiction.
Qed.

Lemma update_views_all m p cells' : sound m -> In p (dm_vars m) ->
  (forall q o, q <> p -> nth_error (dm_cells m) q = Some o -> nth_error cells' q = Some o) ->
  forall q o ts, nth_error (dm_cells m) q = Some o -> views_all (dm_cells m) (do_groups o) ts -> views_all cells' (do_groups o) ts.
Proof.
  intros Hs Hp He q o ts Ho H. apply views_all_Forall2. apply views_all_Forall2 in H.
  eapply Forall2_mono; [exact H|]. intros g t Hg. apply update_views with (p := p); auto.
  intros E. subst g. destruct (sd_groups m Hs _ _ _ Ho Hg) as [_ Hi]. contradiction.
Qed.

Lemma nth_app_l {A} (l l' : list A) n x : nth_error l n = Some x -> nth_error (l ++ l') n = Some x.
Proof. intros H. rewrite nth_error_app1; auto. eapply nth_lt; eauto. Qed.

Lemma nth_app_end {A} (l : list A) x : nth_error (l ++ [x]) (length l) = Some x.
Proof. rewrite nth_error_app2, Nat.sub_diag; auto. Qed.

(** A program may construct an object from the members of another. *)
Lemma sound_new m o : sound m -> (forall g, In g (do_groups o) -> inner m g) ->
  sound (mk_dm (dm_cells m ++ [o]) (dm_vars m ++ [length (dm_cells m)])).
Proof.
  intros Hs Ho. split; cbn [dm_cells dm_vars].
  - intros p Hp. rewrite app_length. cbn. apply in_app_or in Hp. destruct Hp as [Hp|[<-|[]]]; [|lia].
    apply (sd_vars m Hs) in Hp. lia.
  -
    rewrite <- (rev_involutive (dm_vars m ++ [length (dm_cells m)])). apply NoDup_rev. rewrite rev_app_distr. cbn.
    constructor; [|apply NoDup_rev, (sd_nodup m Hs)]. rewrite <- in_rev. intros H. apply (sd_vars m Hs) in H. lia.
  - intros p o' g Hp Hg.
    assert (Hi : inner m g).
    { destruct (lt_dec p (length (dm_cells m))) as [Hl|Hl].
      - rewrite nth_error_app1 in Hp by auto. eapply (sd_groups m Hs); eauto.
      - assert (Ep : p = length (dm_cells m)) by (apply nth_lt in Hp; rewrite app_length in Hp; cbn in Hp; lia).
        subst p. rewrite nth_app_end in Hp. injection Hp as <-. auto. }
    destruct Hi as [H1 H2]. split; cbn [dm_cells dm_vars]; [rewrite app_length; cbn; lia|].
    intros H. apply in_app_or in H. destruct H as [H|[H|[]]]; [contradiction|lia].
Qed.

Lemma step_value m vals c vals' :
  sound m -> Forall2 (views (dm_cells m)) (dm_vars m) vals -> ~ to_itself c -> value_step vals c = Ok vals' ->
  exists fuel0 m', (forall fuel, fuel0 <= fuel -> desc_step fuel m c = Ok m')
  /\ sound m' /\ Forall2 (views (dm_cells m')) (dm_vars m') vals'.
Proof.
  intros Hs Hv Hno H. destruct c as [caption ll mi|b|a d|a b]; cbn [value_step] in H; cbn [to_itself] in Hno.
  - apply bind_Ok in H. destruct H as (v & Hn & H). injection H as <-. exists 0. eexists.
    split; [intros fuel _; cbn [desc_step]; rewrite Hn; reflexivity|].
    split; [apply sound_new; auto; intros g []|]. cbn [dm_cells dm_vars]. apply Forall2_app.
    + eapply Forall2_mono; [exact Hv|]. intros p t _ Ht. eapply views_ext; [exact Ht|]. intros. now apply nth_app_l.
    + unfold new_options in Hn. destruct (Z.ltb _ _); [|discriminate]. injection Hn as <-. constructor; [|constructor].
      apply (vw _ _ (mk_do caption ll mi [] [])); [apply nth_app_end|constructor].
  - destruct (nth_error vals b) as [v|] eqn:Eb; [|discriminate]. cbn [bind] in H. injection H as <-.
    destruct (Forall2_nth _ _ _ Hv _ _ Eb) as (p & Ep & Hp).
    inversion Hp as [p0 o ts Ho Hts]; subst p0 v. exists 0. eexists.
    split; [intros fuel _; cbn [desc_step]; rewrite Ep, Ho; reflexivity|]. cbn [snd].
    split; [apply sound_new; auto; intros g Hg; eapply (sd_groups m Hs); eauto|]. cbn [dm_cells dm_vars]. apply Forall2_app.
    + eapply Forall2_mono; [exact Hv|]. intros q t _ Ht. eapply views_ext; [exact Ht|]. intros. now apply nth_app_l.
    + constructor; [|constructor]. constructor; [apply nth_app_end|].
      apply views_all_Forall2. apply views_all_Forall2 in Hts. eapply Forall2_mono; [exact Hts|].
      intros g t _ Ht. eapply views_ext; [exact Ht|]. intros. now apply nth_app_l.
  - destruct (nth_error vals a) as [v|] eqn:Ea; [|discriminate]. cbn [bind] in H. injection H as <-.
    destruct (Forall2_nth _ _ _ Hv _ _ Ea) as (p & Ep & Hp).
    inversion Hp as [p0 o ts Ho Hts]; subst p0. exists 0. eexists.
    split; [intros fuel _; cbn [desc_step]; rewrite Ep, Ho; reflexivity|]. cbn [fst snd].
    assert (Hin : In p (dm_vars m)) by (eapply nth_error_In; eauto).
    assert (Hlt : p < length (dm_cells m)) by (now apply (sd_vars m Hs)).
    assert (Hsame : forall q o', q <> p -> nth_error (dm_cells m) q = Some o' ->
              nth_error (set_cell (dm_cells m) p (do_add o d false)) q = Some o')
      by (intros q o' Hq Hq'; rewrite set_cell_other; auto).
    split.
    + split; cbn [dm_cells dm_vars].
      * intros q Hq. rewrite set_cell_length. now apply (sd_vars m Hs).
      * apply (sd_nodup m Hs).
      * intros q o' g Hq Hg.
        assert (Hi : inner m g).
        { destruct (Nat.eq_dec p q) as [E|Hd].
          - subst q. rewrite set_cell_same in Hq by auto. injection Hq as <-. cbn in Hg. exact (sd_groups m Hs _ _ _ Ho Hg).
          - rewrite set_cell_other in Hq by auto. exact (sd_groups m Hs _ _ _ Hq Hg). }
        destruct Hi as [H1 H2]. split; cbn [dm_cells dm_vars]; auto. now rewrite set_cell_length.
    + cbn [dm_cells dm_vars]. eapply Forall2_set; [exact Hv|apply (sd_nodup m Hs)|exact Ep| |].
      * intros q t _ Hq Ht. apply (update_views m p); auto.
      * apply (vw _ p (do_add o d false) ts); [now apply set_cell_same|]. cbn [do_add do_groups].
        eapply (update_views_all m p); eauto.
  - destruct (nth_error vals a) as [v|] eqn:Ea; [|discriminate]. cbn [bind] in H.
    destruct (nth_error vals b) as [w|] eqn:Eb; [|discriminate]. cbn [bind] in H. injection H as <-.
    destruct (Forall2_nth _ _ _ Hv _ _ Ea) as (p & Ep & Hp).
    destruct (Forall2_nth _ _ _ Hv _ _ Eb) as (q & Eq & Hq).
    inversion Hp as [p0 oa ta Hoa Hta]; subst p0 v. inversion Hq as [p0 ob tb Hob Htb]; subst p0 w.
    assert (Hpq : p <> q).
    { intros E. apply Hno. subst q. pose proof (sd_nodup m Hs) as Hd. rewrite NoDup_nth_error in Hd.
      apply Hd; [eapply nth_lt; eauto|congruence]. }
    assert (Hin : In p (dm_vars m)) by (eapply nth_error_In; eauto).
    assert (Hlt : p < length (dm_cells m)) by (now apply (sd_vars m Hs)).
    set (n := length (dm_cells m)) in *.
    set (oa' := mk_do (do_caption oa) (do_line_length oa) (do_min_description_length oa)
                  (add_loop (do_options oa) (do_options ob)) (do_groups oa ++ [n])).
    set (cells' := set_cell (dm_cells m ++ [ob]) p oa').
    exists (S (length (do_options ob))), (mk_dm cells' (dm_vars m)). split.
    { intros fuel Hf. cbn [desc_step]. rewrite Ep, Hoa. cbn [bind]. rewrite Eq, Hob. cbn [bind fst snd]. fold n.
      rewrite (add_cells_eq p q (do_add_pointer oa n) ob); auto.
      - cbn [bind]. rewrite set_cell_twice. reflexivity.
      - apply set_cell_same. rewrite app_length. cbn. fold n. lia.
      - rewrite set_cell_other by auto. now apply nth_app_l. }
    assert (Hlen : length cells' = S n).
    { unfold cells'. rewrite set_cell_length, app_length. cbn. fold n. lia. }
    assert (Hnp : n <> p) by lia.
    assert (Hnew : nth_error cells' n = Some ob).
    { unfold cells'. rewrite set_cell_other by auto. apply nth_app_end. }
    assert (Hown : nth_error cells' p = Some oa').
    { unfold cells'. apply set_cell_same. rewrite app_length. fold n. lia. }
    assert (Hsame : forall r o', r <> p -> nth_error (dm_cells m) r = Some o' -> nth_error cells' r = Some o').
    { intros r o' Hr Hr'. unfold cells'. rewrite set_cell_other by auto. now apply nth_app_l. }
    split.
    + split; cbn [dm_cells dm_vars].
      * intros r Hr. rewrite Hlen. apply (sd_vars m Hs) in Hr. fold n in Hr. lia.
      * apply (sd_nodup m Hs).
      * intros r o' g Hr Hg.
        assert (Hi : inner m g \/ g = n).
        { destruct (Nat.eq_dec r p) as [E|Hd].
          - subst r. rewrite Hown in Hr. injection Hr as <-. cbn [oa' do_groups] in Hg. apply in_app_or in Hg.
            destruct Hg as [Hg|[Hg|[]]]; [left; exact (sd_groups m Hs _ _ _ Hoa Hg)|now right].
          - left. destruct (Nat.eq_dec r n) as [E|Hd'].
            + subst r. rewrite Hnew in Hr. injection Hr as <-. exact (sd_groups m Hs _ _ _ Hob Hg).
            + unfold cells' in Hr. rewrite set_cell_other in Hr by auto. rewrite nth_error_app1 in Hr.
              * exact (sd_groups m Hs _ _ _ Hr Hg).
              * apply nth_lt in Hr. rewrite app_length in Hr. cbn in Hr. fold n in Hr |- *. lia. }
        destruct Hi as [[H1 H2]|E]; [|subst g]; split; cbn [dm_cells dm_vars].
        -- rewrite Hlen. fold n in H1. lia.
        -- exact H2.
        -- rewrite Hlen. lia.
        -- intros Hc. apply (sd_vars m Hs) in Hc. fold n in Hc. lia.
    + cbn [dm_cells dm_vars]. eapply Forall2_set; [exact Hv|apply (sd_nodup m Hs)|exact Ep| |].
      * intros r t _ Hr Ht. apply (update_views m p); auto.
      * apply (vw _ p oa' (ta ++ [_])); [exact Hown|]. cbn [oa' do_groups].
        apply views_all_Forall2. apply Forall2_app.
        -- apply views_all_Forall2. exact (update_views_all m p cells' Hs Hin Hsame _ _ _ Hoa Hta).
        -- constructor; [|constructor]. constructor; [exact Hnew|]. exact (update_views_all m p cells' Hs Hin Hsame _ _ _ Hob Htb).
Qed.

Lemma step_more m fuel c m' : desc_step fuel m c = Ok m' -> forall fuel', fuel <= fuel' -> desc_step fuel' m c = Ok m'.
Proof.
  assert (Hl : forall fuel fuel' cells a b i r, add_cells fuel cells a b i = Ok r -> fuel <= fuel' ->
            add_cells fuel' cells a b i = Ok r).
  { clear. induction fuel as [|fuel IH]; intros fuel' cells a b i r H Hf; [discriminate|].
    destruct fuel' as [|fuel']; [lia|]. cbn [add_cells] in *.
    destruct (nth_error cells a) as [oa|]; [|discriminate]. destruct (nth_error cells b) as [ob|]; [|discriminate].
    destruct (nth_error (do_options ob) i) as [[x g]|]; auto. apply IH; auto. lia. }
  intros H fuel' Hf. destruct c as [caption ll mi|b|a d|a b]; auto. cbn [desc_step] in *.
  apply bind_Ok in H. destruct H as (pa & Ha & H). apply bind_Ok in H. destruct H as (pb & Hb & H).
  apply bind_Ok in H. destruct H as (cs & Hc & H). rewrite Ha. cbn [bind]. rewrite Hb. cbn [bind].
  rewrite (Hl _ _ _ _ _ _ _ Hc Hf). exact H.
Qed.

Lemma run_value cs : forall m vals vals',
  sound m -> Forall2 (views (dm_cells m)) (dm_vars m) vals -> Forall (fun c => ~ to_itself c) cs ->
  value_run vals cs = Ok vals' ->
  exists fuel0 m', (forall fuel, fuel0 <= fuel -> desc_run fuel m cs = Ok m')
  /\ sound m' /\ Forall2 (views (dm_cells m')) (dm_vars m') vals'.
Proof.
  induction cs as [|c cs IH]; intros m vals vals' Hs Hv Hno H.
  - injection H as <-. exists 0, m. auto.
  - inversion Hno as [|c0 cs0 Hc Hcs]; subst. cbn [value_run] in H. apply bind_Ok in H. destruct H as (vals1 & H1 & H2).
    destruct (step_value _ _ _ _ Hs Hv Hc H1) as (f1 & m1 & Hm1 & Hs1 & Hv1).
    destruct (IH _ _ _ Hs1 Hv1 Hcs H2) as (f2 & m2 & Hm2 & Hs2 & Hv2).
    exists (f1 + f2), m2. split; auto. intros fuel Hf. cbn [desc_run]. rewrite Hm1 by lia. cbn [bind]. apply Hm2. lia.
Qed.

(** The other way round: what the objects do, the values do. *)
Lemma step_back m vals c fuel m' :
  sound m -> Forall2 (views (dm_cells m)) (dm_vars m) vals -> ~ to_itself c -> desc_step fuel m c = Ok m' ->
  exists vals', value_step vals c = Ok vals' /\ sound m' /\ Forall2 (views (dm_cells m')) (dm_vars m') vals'.
Proof.
  intros Hs Hv Hno H.
  assert (Hval : exists vals', value_step vals c = Ok vals').
  { assert (Hvar : forall x p, nth_error (dm_vars m) x = Some p -> exists t, nth_error vals x = Some t).
    { intros x p Hx. destruct (Forall2_nth1 _ _ _ Hv _ _ Hx) as (t & Ht & _). eauto. }
    destruct c as [caption ll mi|b|a d|a b]; cbn [desc_step value_step] in *.
    - apply bind_Ok in H. destruct H as (v & Hn & _). rewrite Hn. cbn [bind]. eauto.
    - destruct (nth_error (dm_vars m) b) as [p|] eqn:Eb; [|discriminate]. destruct (Hvar _ _ Eb) as [t ->]. cbn [bind]. eauto.
    - destruct (nth_error (dm_vars m) a) as [p|] eqn:Eb; [|discriminate]. destruct (Hvar _ _ Eb) as [t ->]. cbn [bind]. eauto.
    - destruct (nth_error (dm_vars m) a) as [p|] eqn:Ea; [|discriminate]. destruct (Hvar _ _ Ea) as [t ->].
      destruct (nth_error (dm_cells m) p) as [o|]; [|discriminate]. cbn [bind] in *.
      destruct (nth_error (dm_vars m) b) as [q|] eqn:Eb; [|discriminate]. destruct (Hvar _ _ Eb) as [u ->]. cbn [bind]. eauto. }
  destruct Hval as [vals' Hval]. exists vals'. split; auto.
  destruct (step_value _ _ _ _ Hs Hv Hno Hval) as (f0 & m1 & Hm1 & Hs1 & Hv1).
  pose proof (step_more _ _ _ _ H (f0 + fuel)) as Hmore. rewrite Hm1 in Hmore by lia.
  assert (E : m1 = m') by (assert (Ok m1 = Ok m') by (apply Hmore; lia); congruence). subst m1. auto.
Qed.

Lemma run_back cs : forall m vals fuel m',
  sound m -> Forall2 (views (dm_cells m)) (dm_vars m) vals -> Forall (fun c => ~ to_itself c) cs ->
  desc_run fuel m cs = Ok m' ->
  exists vals', value_run vals cs = Ok vals' /\ sound m' /\ Forall2 (views (dm_cells m')) (dm_vars m') vals'.
Proof.
  induction cs as [|c cs IH]; intros m vals fuel m' Hs Hv Hno H.
  - injection H as <-. exists vals. auto.
  - inversion Hno as [|c0 cs0 Hc Hcs]; subst. cbn [desc_run] in H. apply bind_Ok in H. destruct H as (m1 & H1 & H2).
    destruct (step_back _ _ _ _ _ Hs Hv Hc H1) as (vals1 & E1 & Hs1 & Hv1).
    destruct (IH _ _ _ _ Hs1 Hv1 Hcs H2) as (vals2 & E2 & Hs2 & Hv2). exists vals2. cbn [value_run]. rewrite E1. auto.
Qed.

Lemma sound_empty : sound (mk_dm [] []).
Proof. split; cbn; [intros p []|constructor|intros [|p] o g H; discriminate]. Qed.

Lemma value_step_untouched vals c vals' x v :
  value_step vals c = Ok vals' -> ~ on c x -> nth_error vals x = Some v -> nth_error vals' x = Some v.
Proof.
  intros H Hon Hx. destruct c as [caption ll mi|b|a d|a b]; cbn [value_step on] in *.
  - apply bind_Ok in H. destruct H as (w & _ & H). injection H as <-. now apply nth_app_l.
  - apply bind_Ok in H. destruct H as (w & _ & H). injection H as <-. now apply nth_app_l.
  - apply bind_Ok in H. destruct H as (w & _ & H). injection H as <-. now rewrite set_cell_other.
  - apply bind_Ok in H. destruct H as (w & _ & H). apply bind_Ok in H. destruct H as (w' & _ & H). injection H as <-.
    now rewrite set_cell_other.
Qed.

Lemma value_run_untouched cs : forall vals vals' x v,
  value_run vals cs = Ok vals' -> Forall (fun c => ~ on c x) cs -> nth_error vals x = Some v -> nth_error vals' x = Some v.
Proof.
  induction cs as [|c cs IH]; intros vals vals' x v H Hon Hx; [injection H as <-; auto|].
  inversion Hon as [|c0 cs0 Hc Hcs]; subst. cbn [value_run] in H. apply bind_Ok in H. destruct H as (vals1 & H1 & H2).
  eapply IH; eauto. eapply value_step_untouched; eauto.
Qed.

Lemma vars_grow m fuel c m' x p : desc_step fuel m c = Ok m' -> nth_error (dm_vars m) x = Some p -> nth_error (dm_vars m') x = Some p.
Proof.
  intros H Hx. destruct c as [caption ll mi|b|a d|a b]; cbn [desc_step] in H; apply bind_Ok in H; destruct H as (v & _ & H).
  1,2: injection H as <-; now apply nth_app_l.
  - injection H as <-. exact Hx.
  - apply bind_Ok in H; destruct H as (w & _ & H). apply bind_Ok in H; destruct H as (cs & _ & H). injection H as <-. exact Hx.
Qed.

Lemma vars_grow_run cs : forall m fuel m' x p,
  desc_run fuel m cs = Ok m' -> nth_error (dm_vars m) x = Some p -> nth_error (dm_vars m') x = Some p.
Proof.
  induction cs as [|c cs IH]; intros m fuel m' x p H Hx; [injection H as <-; auto|].
  cbn [desc_run] in H. apply bind_Ok in H. destruct H as (m1 & H1 & H2). eapply IH; eauto. eapply vars_grow; eauto.
Qed.
