(** Proofs about whole programs. *)

From Coq Require Import List Ascii String NArith ZArith Bool Arith Lia Sorting.Sorted.
From Verif Require Import Base Errors Spec BaseFacts Values OptDesc SpecLookup LookupFacts Positional Cmdline
  Parsers ConfigFile VarMap SpecCmdline ParseFacts SpecStore StoreFacts SemFacts SpecEnd.
From Verif Require SpecConfig ConfigFacts.
Import ListNotations.

Lemma find_In ds name g lic sic d : find ds name g lic sic = Ok d -> In d ds.
Proof.
  unfold find. intros H. apply bind_Ok in H. destruct H as ([d'|] & H & E); [|discriminate].
  injection E as <-. eapply find_found_In; eauto.
Qed.

(** No entry has the empty name. *)
Lemma store_options_nil ds prefix final utf8 opts : forall m nf m' nf' r,
  store_options ds prefix final utf8 opts m nf = (m', nf', r) -> sm_find [] m' = sm_find [] m.
Proof.
  assert (S : forall k (v : variable_value) m, is_empty k = false -> sm_find [] (sm_set k v m) = sm_find [] m).
  { intros k v m Hk. rewrite sm_find_set. destruct (str_eqb_spec [] k) as [<-|]; [discriminate|auto]. }
  induction opts as [|o opts IH]; intros m nf m' nf' r H; cbn [store_options] in H.
  - now injection H as <- _ _.
  - destruct (is_empty (po_key o)) eqn:Ee; [eauto|]. destruct (po_unreg o); [eauto|].
    destruct (ss_mem (po_key o) final); [eauto|].
    destruct (find ds (po_key o) false false false) as [d|e|u|]; try (now injection H as <- _ _).
    set (v1 := if vv_defaulted _ then _ else _) in H.
    destruct (vs_parse (od_sem d) (vv_value v1) (po_value o) utf8) as [a [[]|e|u|]].
    + apply IH in H. rewrite H. auto.
    + injection H as <- _ _. auto.
    + now injection H as <- _ _.
    + now injection H as <- _ _.
Qed.

Lemma store_defaults_nil prefix ds : forall m req m' req',
  store_defaults ds prefix m req = (m', req') -> sm_find [] m' = sm_find [] m.
Proof.
  induction ds as [|d ds IH]; intros m req m' req' H; cbn [store_defaults] in H.
  - now injection H as <- _.
  - destruct (is_empty (od_key d [])) eqn:Ee; [eauto|]. apply IH in H. rewrite H.
    destruct (sm_mem (od_key d []) m); auto. destruct (vs_default (od_sem d)); auto.
    rewrite sm_find_set. destruct (str_eqb_spec [] (od_key d [])) as [E|]; auto. rewrite <- E in Ee. discriminate.
Qed.

Lemma store_nil p vm utf8 vm' r : store p vm utf8 = (vm', r) -> entry vm' [] = entry vm [].
Proof.
  unfold store, entry. intros H. destruct (pr_desc p) as [ds|]; [|now injection H as <- _].
  destruct (store_options ds (pr_prefix p) (vm_final vm) utf8 (pr_options p) (vm_map vm) []) as [[m nf] r0] eqn:Eo.
  apply store_options_nil in Eo.
  destruct r0 as [[]|e|u|]; try (now injection H as <- _).
  destruct (store_defaults ds (pr_prefix p) m (vm_required vm)) as [m' req] eqn:Ed. injection H as <- _.
  apply store_defaults_nil in Ed. cbn [vm_map]. congruence.
Qed.

Lemma stores_nil vm h vm' : stores vm h vm' -> entry vm' [] = entry vm [].
Proof. induction 1 as [|vm p u vm1 h vm2 Hs _ IH]; auto. rewrite IH. eapply store_nil; eauto. Qed.

(** Every entry comes from an option that a source mentions or whose default was taken. *)
Lemma stores_origin vm h vm' k v :
  stores vm h vm' -> k <> [] -> entry vm' k = Some v ->
  entry vm k = Some v
  \/ exists p u ds d, In (p, u) h /\ pr_desc p = Some ds /\ In d ds /\ vv_sem v = Some (od_sem d)
     /\ (mentions p k /\ find ds k false false false = Ok d \/ is_key d [] k).
Proof.
  intros H Hne. induction H as [|vm p u vm1 h vm2 Hs _ IH]; intros Hv; [now left|].
  destruct (IH Hv) as [H1|(p' & u' & ds & d & Hin & H2)].
  2:{ right. exists p', u', ds, d. split; [now right|auto]. }
  destruct (store_entry _ _ _ _ k Hs Hne) as (ds & Eds & [(_ & _ & [(v' & E1 & E2)|[E1 E2]])|(Ho & _ & d & a & Hd & _ & E & _)]).
  - left. congruence.
  - right. rewrite H1 in E2. inversion E2 as [ds1 d ds2 def E3 Hk Hdef _ Ev|]; subst.
    exists p, u, (ds1 ++ d :: ds2), d. split; [now left|]. split; auto. split; [apply in_or_app; right; now left|].
    split; [reflexivity|]. now right.
  - right. rewrite H1 in E. injection E as ->. exists p, u, ds, d. split; [now left|]. split; auto.
    split; [eapply find_In; eauto|]. split; [reflexivity|]. left. auto.
Qed.

Lemma written_app addr e1 e2 : written addr (e1 ++ e2) = written addr e1 ++ written addr e2.
Proof. unfold written. now rewrite flat_map_app. Qed.

Lemma written_none addr (m : list (str * variable_value)) evs :
  Forall2 notifies m evs -> (forall k v ev, In (k, v) m -> notifies (k, v) ev -> written addr ev = []) ->
  written addr (List.concat evs) = [].
Proof.
  induction 1 as [|[k v] ev m evs Hn _ IH]; intros H; [reflexivity|]. cbn [List.concat]. rewrite written_app.
  rewrite (H k v ev); [|now left|auto]. apply IH. intros k' v' ev' Hin. apply H. now right.
Qed.

Lemma written_one addr (m : list (str * variable_value)) name v0 evs :
  StronglySorted str_lt (map fst m) -> In (name, v0) m -> Forall2 notifies m evs ->
  (forall k v ev, In (k, v) m -> k <> name -> notifies (k, v) ev -> written addr ev = []) ->
  exists ev0, notifies (name, v0) ev0 /\ written addr (List.concat evs) = written addr ev0.
Proof.
  intros Hs Hin Hf Hw. apply in_split in Hin. destruct Hin as (m1 & m2 & ->).
  apply Forall2_app_inv_l in Hf. destruct Hf as (evs1 & evs2 & H1 & H2 & ->).
  inversion H2 as [|? ev0 ? evs2' Hn Hr]; subst. exists ev0. split; auto.
  rewrite map_app in Hs. cbn [map fst] in Hs.
  assert (Hd : ~ In name (map fst m1) /\ ~ In name (map fst m2)).
  { clear - Hs. induction m1 as [|x m1 IH]; cbn [map app] in Hs.
    - split; [intros []|]. inversion Hs as [|? ? _ Hl]; subst. rewrite Forall_forall in Hl.
      intros Hi. apply Hl in Hi. now apply str_lt_irrefl in Hi.
    - inversion Hs as [|? ? Hs' Hl]; subst. destruct (IH Hs') as [I1 I2]. split; auto. cbn [map]. intros [E|E]; auto.
      rewrite Forall_forall in Hl. assert (Hx : In name (map fst m1 ++ name :: map fst m2)) by (apply in_or_app; right; now left).
      apply Hl in Hx. rewrite E in Hx. now apply str_lt_irrefl in Hx. }
  destruct Hd as [D1 D2].
  rewrite concat_app. cbn [List.concat]. rewrite !written_app.
  rewrite (written_none addr m1 evs1 H1), (written_none addr m2 evs2' Hr).
  - cbn [app]. now rewrite app_nil_r.
  - intros k v ev Hi. apply (Hw k v ev). { apply in_or_app. right. now right. }
    intros ->. apply D2. change name with (fst (name, v)). now apply in_map.
  - intros k v ev Hi. apply (Hw k v ev). { apply in_or_app. now left. }
    intros ->. apply D1. change name with (fst (name, v)). now apply in_map.
Qed.

Section Precedence.
Variable lexical_cast : nat -> str -> option Z.
Variable utf8_to_local : str -> outcome str.
Variables (ds : list option_description) (d : option_description) (name : str) (tv : typed_value) (addr : nat).
Hypothesis Hne : name <> [].
Hypothesis Hone : exactly_one (fun d' => is_key d' [] name) ds d.
Hypothesis Hsem : od_sem d = typed lexical_cast utf8_to_local tv.
Hypothesis Hto : tv_store_to tv = Some addr.
Hypothesis Hown : owned ds d addr.

Lemma notify_writes x ev : vs_notify (od_sem d) x = (ev, Ok tt) -> exists v, x = Some v /\ written addr ev = [v].
Proof.
  rewrite Hsem. cbn [typed vs_notify]. unfold tv_notify. rewrite Hto. unfold any_cast.
  destruct x as [v|]; [|discriminate]. destruct (vty_eqb (value_ty v) (tv_type tv)); [|discriminate].
  intros H. exists v. split; auto. destruct (tv_notifier tv) as [[f body]|].
  - destruct (body v); [discriminate|]. injection H as <-. cbn [app written flat_map]. now rewrite Nat.eqb_refl.
  - injection H as <-. cbn [written flat_map]. now rewrite Nat.eqb_refl.
Qed.


Lemma writes_of_notify h vm ev :
  stores vm_new h vm -> notify vm = (ev, Ok tt) -> Forall (fun pu => pr_desc (fst pu) = Some ds) h ->
  called ds h d name -> find ds name false false false = Ok d ->
  match entry vm name with
  | Some v => exists x, vv_value v = Some x /\ written addr ev = [x]
  | None => written addr ev = []
  end.
Proof.
  intros H Hn Hds Hc Hf.
  destruct (stores_sorted _ _ _ H) as [Hs _]; [constructor|constructor|].
  unfold notify in Hn. destruct (check_required (vm_required vm) (vm_map vm)) as [[]|e|u|]; try discriminate.
  apply run_notify_spec in Hn. destruct Hn as [(_ & evs & Hf2 & ->)|(m1 & k & v & m2 & s & evs & last & _ & _ & _ & _ & Hr & _)];
    [|congruence].
  destruct (entries_lemma vm Hs) as [Hso Hin].
  assert (Hsrc : forall k v, k <> [] -> entry vm k = Some v -> exists d', In d' ds /\ vv_sem v = Some (od_sem d')
    /\ (d' = d -> k = name) /\ (k = name -> d' = d)).
  { intros k v Hk Hv. destruct (stores_origin _ _ _ _ _ H Hk Hv) as [E|(p & u & ds' & d' & Hi & Eds & Hd' & Hsv & Hcase)]; [discriminate|].
    rewrite Forall_forall in Hds. pose proof (Hds _ Hi) as E. cbn [fst] in E. rewrite Eds in E. injection E as ->.
    exists d'. split; auto. split; auto. destruct Hone as (l1 & l2 & El & Hk1 & Hno).
    split.
    - intros ->. destruct Hcase as [[Hm Hfk]|Hkey]; [eapply Hc; eauto|].
      clear - Hk1 Hkey Hk Hne. unfold is_key in *. destruct Hk1 as [(f1 & r1 & E1 & _ & ->)|[(f1 & r1 & _ & _ & ->)|[E1 ->]]]; [|congruence|];
        (destruct Hkey as [(f2 & r2 & E2 & _ & ->)|[(f2 & r2 & _ & _ & ->)|[E2 ->]]]; [|congruence|]); congruence.
    - intros ->. destruct Hcase as [[Hm Hfk]|Hkey]; [congruence|]. subst ds. apply in_app_or in Hd'.
      rewrite Forall_forall in Hno. destruct Hd' as [Hd'|[Hd'|Hd']]; auto.
      + exfalso. apply (Hno d'); auto. apply in_or_app. now left.
      + exfalso. apply (Hno d'); auto. apply in_or_app. now right. }
  assert (Hoth : forall k v ev, In (k, v) (vm_map vm) -> k <> name -> notifies (k, v) ev -> written addr ev = []).
  { intros k v ev Hi Hk Hnk. apply Hin in Hi. destruct k as [|c k].
    { rewrite (stores_nil _ _ _ H) in Hi. discriminate. }
    destruct (Hsrc (c :: k) v) as (d' & Hd' & Hsv & Hx & _); [discriminate|auto|].
    unfold notifies in Hnk. cbn [snd] in Hnk. rewrite Hsv in Hnk. eapply Hown; [exact Hd'| |exact Hnk].
    intros E. apply Hk. now apply Hx. }
  destruct (entry vm name) as [v|] eqn:Ev.
  - destruct (Hsrc name v Hne Ev) as (d' & _ & Hsv & _ & Hx). rewrite (Hx eq_refl) in Hsv.
    destruct (written_one addr (vm_map vm) name v evs Hso) as (ev0 & Hn0 & Hw); auto.
    { now apply Hin. }
    unfold notifies in Hn0. cbn [snd] in Hn0. rewrite Hsv in Hn0. apply notify_writes in Hn0.
    destruct Hn0 as (x & Ex & Hwx). exists x. split; auto. congruence.
  - apply (written_none addr (vm_map vm) evs Hf2). intros k v ev Hi. apply Hoth; auto.
    intros ->. apply Hin in Hi. congruence.
Qed.

End Precedence.

(** ** When [store] succeeds, and what it depends on *)

Lemma store_options_succeeds ds prefix final utf8 : forall opts m nf,
  (forall name, name <> [] -> occurrences opts name <> [] -> ~ In name final ->
     exists d a, find ds name false false false = Ok d
       /\ parsed_all (od_sem d) utf8 (given (sm_find name m)) (occurrences opts name) a) ->
  exists m' nf', store_options ds prefix final utf8 opts m nf = (m', nf', Ok tt).
Proof.
  induction opts as [|o opts IH]; intros m nf H; [cbn; eauto|]. cbn [store_options].
  assert (Hskip : is_empty (po_key o) = true \/ po_unreg o = true \/ In (po_key o) final ->
    forall name, name <> [] -> occurrences opts name <> [] -> ~ In name final ->
     exists d a, find ds name false false false = Ok d
       /\ parsed_all (od_sem d) utf8 (given (sm_find name m)) (occurrences opts name) a).
  { intros Hk name Hne Ho Hf. destruct (H name Hne) as (d & a & Hd & Hp); auto.
    - rewrite occurrences_cons. destruct (str_eqb (po_key o) name && negb (po_unreg o)); [discriminate|auto].
    - exists d, a. split; auto. rewrite occurrences_cons in Hp. destruct (str_eqb_spec (po_key o) name) as [E|]; auto.
      destruct Hk as [Hk|[Hk|Hk]].
      + apply is_empty_true in Hk. congruence.
      + rewrite Hk in Hp. exact Hp.
      + rewrite E in Hk. contradiction. }
  destruct (is_empty (po_key o)) eqn:Ee; [apply IH; auto|]. destruct (po_unreg o) eqn:Eu; [apply IH; auto|].
  destruct (ss_mem (po_key o) final) eqn:Ef; [apply IH; apply Hskip; right; right; now apply ss_mem_In|].
  clear Hskip. assert (Hne : po_key o <> []) by (intros E; rewrite E in Ee; discriminate).
  assert (Hnf : ~ In (po_key o) final) by (rewrite <- ss_mem_In; congruence).
  destruct (H (po_key o) Hne) as (d & a & Hd & Hp); auto.
  { rewrite occurrences_cons, str_eqb_refl, Eu. discriminate. }
  rewrite occurrences_cons, str_eqb_refl, Eu in Hp. cbn [negb andb] in Hp. rewrite Hd.
  destruct (given_reset m (po_key o)) as [Hg Hv]. cbv zeta in Hg, Hv. rewrite Hg, Hv.
  inversion Hp as [|? ? a' ? ? H1 H2]; subst. rewrite H1. apply IH. intros name Hn Ho Hf.
  rewrite sm_find_set. destruct (str_eqb_spec name (po_key o)) as [->|Hd'].
  - exists d, a. split; auto.
  - destruct (H name Hn) as (d' & b & Hd1 & Hp1); auto.
    + rewrite occurrences_cons. destruct (str_eqb (po_key o) name && negb (po_unreg o)); [discriminate|auto].
    + exists d', b. split; auto. rewrite occurrences_cons in Hp1.
      destruct (str_eqb_spec (po_key o) name); [congruence|auto].
Qed.

Lemma store_succeeds_lemma p ds vm utf8 : pr_desc p = Some ds ->
  ((exists vm', store p vm utf8 = (vm', Ok tt))
   <-> (forall name, name <> [] -> mentions p name -> ~ In name (vm_final vm) ->
        exists d a, find ds name false false false = Ok d
          /\ parsed_all (od_sem d) utf8 (given (entry vm name)) (occurrences (pr_options p) name) a)).
Proof.
  intros Eds. split.
  - intros [vm' H] name Hne Hm Hf. destruct (store_entry _ _ _ _ name H Hne) as (ds' & E & [([Ho|Ho] & _)|(_ & _ & d & a & Hd & Hp & _)]).
    + contradiction Hm.
    + contradiction.
    + exists d, a. replace ds with ds' by congruence. auto.
  - intros H. unfold store. rewrite Eds.
    destruct (store_options_succeeds ds (pr_prefix p) (vm_final vm) utf8 (pr_options p) (vm_map vm) []) as (m & nf & E); [exact H|].
    rewrite E. destruct (store_defaults ds (pr_prefix p) m (vm_required vm)) as [m' req]. eauto.
Qed.

Lemma default_entry_fun ds name e1 e2 : default_entry ds name e1 -> default_entry ds name e2 -> e1 = e2.
Proof.
  assert (X : forall l1 d r1 def l2, ds = l1 ++ d :: r1 -> is_key d [] name -> vs_default (od_sem d) = Some def ->
    Forall (fun d' => is_key d' [] name -> vs_default (od_sem d') = None) l2 -> (exists r2, ds = l2 ++ r2) ->
    exists l, l1 = l2 ++ l).
  { intros l1 d r1 def l2 E Hk Hd Hf [r2 E2]. rewrite E in E2. destruct (app_eq_app _ _ _ _ E2) as [l [[E3 E4]|[E3 E4]]].
    - eauto.
    - destruct l as [|x l]; [exists []; rewrite app_nil_r in E3; now rewrite app_nil_r|]. injection E4 as <- ->.
      subst l2. apply Forall_app in Hf. destruct Hf as [_ Hf]. inversion Hf as [|? ? Hx _]; subst. rewrite Hx in Hd by auto. discriminate. }
  intros H1 H2. destruct H1 as [l1 d1 r1 def1 E1 Hk1 Hd1 Hf1|Hf1], H2 as [l2 d2 r2 def2 E2 Hk2 Hd2 Hf2|Hf2]; auto.
  - destruct (X l1 d1 r1 def1 l2) as [a A]; eauto. destruct (X l2 d2 r2 def2 l1) as [b B]; eauto.
    assert (a = []). { rewrite B, <- app_assoc in A. apply (f_equal (@List.length _)) in A. rewrite !app_length in A. destruct a; auto. cbn in A. lia. }
    subst a. rewrite app_nil_r in A. subst l2. rewrite E1 in E2. apply app_inv_head in E2. injection E2 as <- _. congruence.
  - exfalso. rewrite Forall_forall in Hf2. rewrite (Hf2 d1) in Hd1; auto; [discriminate|]. subst ds. apply in_or_app. right. now left.
  - exfalso. rewrite Forall_forall in Hf1. rewrite (Hf1 d2) in Hd2; auto; [discriminate|]. subst ds. apply in_or_app. right. now left.
Qed.

Lemma store_defaults_indep prefix ds : forall m1 m2 req m1' m2' req1 req2,
  store_defaults ds prefix m1 req = (m1', req1) -> store_defaults ds prefix m2 req = (m2', req2) -> req1 = req2.
Proof.
  induction ds as [|d ds IH]; intros m1 m2 req m1' m2' req1 req2 H1 H2; cbn [store_defaults] in *.
  - congruence.
  - destruct (is_empty (od_key d [])); eauto.
Qed.

Lemma parsed_all_fun s u a occs b : parsed_all s u a occs b -> forall b', parsed_all s u a occs b' -> b = b'.
Proof.
  induction 1 as [|a xs a' occs b Hp _ IH]; intros b' H; inversion H as [|? ? a'' ? ? Hp' Hr]; subst; auto.
  apply IH. congruence.
Qed.

Lemma same_source_lemma p p' vm vm' utf8 vm1 :
  says_the_same p p' -> same_values vm vm' -> store p vm utf8 = (vm1, Ok tt) ->
  exists vm1', store p' vm' utf8 = (vm1', Ok tt) /\ same_values vm1 vm1'.
Proof.
  intros (Ed & _ & Ho) [He Hf] H.
  assert (Hds : exists ds, pr_desc p = Some ds).
  { unfold store in H. destruct (pr_desc p); [eauto|discriminate]. }
  destruct Hds as [ds Eds]. assert (Eds' : pr_desc p' = Some ds) by congruence.
  destruct (proj2 (store_succeeds_lemma p' ds vm' utf8 Eds')) as [vm1' H'].
  { intros name Hne Hm Hnf. rewrite <- He, <- Ho by auto. apply (proj1 (store_succeeds_lemma p ds vm utf8 Eds)); eauto.
    - unfold mentions in *. now rewrite Ho.
    - rewrite Hf; auto. }
  exists vm1'. split; auto.
  assert (K : forall name, name <> [] -> entry vm1 name = entry vm1' name /\ (In name (vm_final vm1) <-> In name (vm_final vm1'))).
  { intros name Hne. specialize (He name). specialize (Hf name Hne). specialize (Ho name Hne).
    destruct (store_entry _ _ _ _ name H Hne) as (ds1 & E1 & C1). destruct (store_entry _ _ _ _ name H' Hne) as (ds2 & E2 & C2).
    rewrite Eds in E1. injection E1 as <-. rewrite Eds' in E2. injection E2 as <-. rewrite <- He, <- Ho in C2.
    destruct C1 as [(A1 & A2 & A3)|(A1 & A2 & d & a & A3 & A4 & A5 & A6)], C2 as [(B1 & B2 & B3)|(B1 & B2 & d' & b & B3 & B4 & B5 & B6)].
    - split; [|tauto]. destruct A3 as [(v & A3 & A4)|[A3 A4]], B3 as [(v' & B3 & B4)|[B3 B4]]; try congruence.
      eapply default_entry_fun; eauto.
    - exfalso. tauto.
    - exfalso. tauto.
    - rewrite A3 in B3. injection B3 as <-. rewrite (parsed_all_fun _ _ _ _ _ A4 _ B4) in A5. split; [congruence|tauto]. }
  split; [|intros name Hne; now apply K].
  intros [|c name]; [|apply K; discriminate].
  rewrite (store_nil _ _ _ _ _ H), (store_nil _ _ _ _ _ H'). apply He.
Qed.

Lemma same_required_lemma p p' vm vm' utf8 vm1 vm1' :
  says_the_same p p' -> vm_required vm = vm_required vm' -> store p vm utf8 = (vm1, Ok tt) -> store p' vm' utf8 = (vm1', Ok tt) ->
  vm_required vm1 = vm_required vm1'.
Proof.
  intros (Ed & Ep & _) Hr H H'. unfold store in H, H'. rewrite <- Ed, <- Ep, <- Hr in H'.
  destruct (pr_desc p) as [ds|]; [|discriminate].
  destruct (store_options ds (pr_prefix p) (vm_final vm) utf8 (pr_options p) (vm_map vm) []) as [[m nf] [[]|e|u|]]; try discriminate.
  destruct (store_options ds (pr_prefix p) (vm_final vm') utf8 (pr_options p') (vm_map vm') []) as [[m' nf'] [[]|e|u|]]; try discriminate.
  destruct (store_defaults ds (pr_prefix p) m (vm_required vm)) as [m1 r1] eqn:E1.
  destruct (store_defaults ds (pr_prefix p) m' (vm_required vm)) as [m2 r2] eqn:E2.
  injection H as <-. injection H' as <-. cbn [vm_required]. eapply store_defaults_indep; eauto.
Qed.

Lemma same_values_refl vm : same_values vm vm.
Proof. split; tauto. Qed.

Lemma says_refl p : says_the_same p p.
Proof. repeat split. Qed.

Lemma stores_same h h' : Forall2 (fun pu pu' => says_the_same (fst pu) (fst pu') /\ snd pu = snd pu') h h' ->
  forall vm vm' vm1, same_values vm vm' -> vm_required vm = vm_required vm' -> stores vm h vm1 ->
  exists vm1', stores vm' h' vm1' /\ same_values vm1 vm1' /\ vm_required vm1 = vm_required vm1'.
Proof.
  induction 1 as [|[p u] [p' u'] h h' [Hs Hu] _ IH]; intros vm vm' vm1 Hv Hr H.
  - inversion H; subst. exists vm'. split; [constructor|auto].
  - cbn [fst snd] in *. subst u'. inversion H as [|? ? ? vm2 ? ? H1 H2]; subst.
    destruct (same_source_lemma _ _ _ _ _ _ Hs Hv H1) as (vm2' & H1' & Hv2).
    destruct (IH vm2 vm2' vm1 Hv2) as (vm1' & H2' & Hv1 & Hr1); auto.
    { eapply same_required_lemma; eauto. }
    exists vm1'. split; auto. econstructor; eauto.
Qed.

(** The same without the required names. *)
Lemma stores_same_values h : forall vm vm' vm1, same_values vm vm' -> stores vm h vm1 ->
  exists vm1', stores vm' h vm1' /\ same_values vm1 vm1'.
Proof.
  induction h as [|[p u] h IH]; intros vm vm' vm1 Hv H; inversion H as [|? ? ? vm2 ? ? H1 H2]; subst.
  - exists vm'. split; [constructor|auto].
  - destruct (same_source_lemma p p _ _ _ _ (says_refl p) Hv H1) as (vm2' & H1' & Hv2).
    destruct (IH vm2 vm2' vm1 Hv2 H2) as (vm1' & H2' & Hv1). exists vm1'. split; auto. econstructor; eauto.
Qed.

Lemma sm_ext V (m1 m2 : smap V) : sm_sorted m1 -> sm_sorted m2 -> (forall k, sm_find k m1 = sm_find k m2) -> m1 = m2.
Proof.
  revert m2. induction m1 as [|[k1 v1] m1 IH]; intros [|[k2 v2] m2] S1 S2 H; auto.
  - specialize (H k2). cbn in H. rewrite str_eqb_refl in H. discriminate.
  - specialize (H k1). cbn in H. rewrite str_eqb_refl in H. discriminate.
  - assert (N : forall k v (m : smap V) x, sm_sorted ((k, v) :: m) -> In x (keys m) -> str_lt k x).
    { intros k v m x S Hx. inversion S as [|? ? _ Hl]; subst. rewrite Forall_forall in Hl. auto. }
    assert (E : k1 = k2).
    { destruct (str_eqb_spec k1 k2) as [|Hd]; auto. exfalso.
      assert (A : In k1 (keys m2)). { apply sm_find_In. exists v1. specialize (H k1). cbn [sm_find] in H. rewrite str_eqb_refl in H.
        destruct (str_eqb_spec k1 k2); [contradiction|]. congruence. }
      assert (B : In k2 (keys m1)). { apply sm_find_In. exists v2. specialize (H k2). cbn [sm_find] in H. rewrite str_eqb_refl in H.
        destruct (str_eqb_spec k2 k1); [congruence|]. congruence. }
      apply (N _ _ _ _ S2) in A. apply (N _ _ _ _ S1) in B. apply (@str_lt_irrefl k1). eapply str_lt_trans; eauto. }
    subst k2. f_equal.
    + specialize (H k1). cbn [sm_find] in H. rewrite str_eqb_refl in H. congruence.
    + apply IH.
      * inversion S1; auto.
      * inversion S2; auto.
      * intros k. specialize (H k). cbn [sm_find] in H. destruct (str_eqb_spec k k1) as [Ek|]; auto.
        assert (F : forall v (m : smap V), sm_sorted ((k1, v) :: m) -> sm_find k1 m = None).
        { intros v m S. apply sm_find_None. intros Hi. apply (N _ _ _ _ S) in Hi. now apply str_lt_irrefl in Hi. }
        rewrite Ek. now rewrite (F _ _ S1), (F _ _ S2).
Qed.

Lemma same_map vm vm' : sm_sorted (vm_map vm) -> sm_sorted (vm_map vm') -> same_values vm vm' -> vm_map vm = vm_map vm'.
Proof. intros H1 H2 [H _]. now apply sm_ext. Qed.

(** ** Sources about different options *)

Lemma swap_lemma p1 u1 p2 u2 vm vm1 vm2 :
  pr_desc p1 = pr_desc p2 -> disjoint p1 p2 ->
  store p1 vm u1 = (vm1, Ok tt) -> store p2 vm1 u2 = (vm2, Ok tt) ->
  exists vm1' vm2', store p2 vm u2 = (vm1', Ok tt) /\ store p1 vm1' u1 = (vm2', Ok tt) /\ same_values vm2 vm2'.
Proof.
  intros Ed Hdis S1 S2.
  assert (Hds : exists ds, pr_desc p1 = Some ds).
  { unfold store in S1. destruct (pr_desc p1); [eauto|discriminate]. }
  destruct Hds as [ds E1]. assert (E2 : pr_desc p2 = Some ds) by congruence.
  assert (G : forall p p' u vma vmb name, disjoint p p' -> pr_desc p = Some ds -> store p vma u = (vmb, Ok tt) -> name <> [] ->
    ~ mentions p name ->
    given (entry vmb name) = given (entry vma name) /\ (In name (vm_final vmb) <-> In name (vm_final vma))
    /\ (entry vmb name = entry vma name \/ entry vma name = None /\ default_entry ds name (entry vmb name))).
  { intros p p' u vma vmb name _ E H Hne Hm. destruct (store_entry _ _ _ _ name H Hne) as (ds' & E' & [(_ & Hf & Hv)|(Ho & _)]).
    2:{ contradiction. }
    rewrite E in E'. injection E' as <-. destruct Hv as [(v & A & B)|[A B]].
    - rewrite A, B. split; auto.
    - split; [|split; auto]. rewrite A. destruct (entry vmb name) as [v|] eqn:Ev; auto. unfold given.
      now rewrite (default_defaulted _ _ _ v B eq_refl). }
  assert (Hdis' : disjoint p2 p1) by (intros n Hn [A B]; apply (Hdis n Hn); auto).
  destruct (proj2 (store_succeeds_lemma p2 ds vm u2 E2)) as [vm1' S1'].
  { intros name Hne Hm Hf. assert (Hm1 : ~ mentions p1 name) by (intros A; apply (Hdis name Hne); auto).
    destruct (G p1 p2 u1 vm vm1 name Hdis E1 S1 Hne Hm1) as (G1 & G2 & _). rewrite <- G1.
    apply (proj1 (store_succeeds_lemma p2 ds vm1 u2 E2)); eauto. tauto. }
  destruct (proj2 (store_succeeds_lemma p1 ds vm1' u1 E1)) as [vm2' S2'].
  { intros name Hne Hm Hf. assert (Hm2 : ~ mentions p2 name) by (intros A; apply (Hdis name Hne); auto).
    destruct (G p2 p1 u2 vm vm1' name Hdis' E2 S1' Hne Hm2) as (G1 & G2 & _). rewrite G1.
    apply (proj1 (store_succeeds_lemma p1 ds vm u1 E1)); eauto. tauto. }
  exists vm1', vm2'. split; auto. split; auto.
  assert (K : forall name, name <> [] -> entry vm2 name = entry vm2' name /\ (In name (vm_final vm2) <-> In name (vm_final vm2'))).
  { intros name Hne.
    assert (D : forall p p' u u' va vb vc vb' vc', pr_desc p = Some ds -> pr_desc p' = Some ds -> ~ mentions p' name ->
      store p va u = (vb, Ok tt) -> store p' vb u' = (vc, Ok tt) -> store p' va u' = (vb', Ok tt) -> store p vb' u = (vc', Ok tt) ->
      entry vc name = entry vc' name /\ (In name (vm_final vc) <-> In name (vm_final vc'))).
    { intros p p' u u' va vb vc vb' vc' Ep Ep' Hm H1 H2 H3 H4.
      assert (Z : disjoint p' (mk_parsed [] None 0)) by (intros n _ [_ A]; apply A; reflexivity).
      destruct (G p' _ u' vb vc name Z Ep' H2 Hne Hm) as (X1 & X2 & X3).
      destruct (G p' _ u' va vb' name Z Ep' H3 Hne Hm) as (Y1 & Y2 & Y3).
      destruct (store_entry _ _ _ _ name H1 Hne) as (ds1 & F1 & C1). rewrite Ep in F1. injection F1 as <-.
      destruct (store_entry _ _ _ _ name H4 Hne) as (ds2 & F2 & C2). rewrite Ep in F2. injection F2 as <-.
      rewrite Y1 in C2.
      destruct C1 as [(A1 & A2 & A3)|(A1 & A2 & d & a & A3 & A4 & A5 & A6)], C2 as [(B1 & B2 & B3)|(B1 & B2 & d' & b & B3 & B4 & B5 & B6)];
        [|exfalso; tauto|exfalso; tauto|].
      - split; [|tauto].
        destruct A3 as [(v & A3 & A4)|[A3 A4]].
        + assert (Ec : entry vc name = Some v) by (destruct X3 as [X3|[X3 _]]; congruence).
          assert (Eb' : entry vb' name = Some v) by (destruct Y3 as [Y3|[Y3 _]]; congruence).
          destruct B3 as [(w & B3 & B4)|[B3 _]]; congruence.
        + assert (Dc : default_entry ds name (entry vc name)) by (destruct X3 as [X3|[X3 X4]]; [congruence|auto]).
          assert (Dc' : default_entry ds name (entry vc' name)).
          { destruct B3 as [(w & B3 & B4)|[B3 B4]]; auto. rewrite B4, <- B3. destruct Y3 as [Y3|[_ Y4]]; [congruence|auto]. }
          eapply default_entry_fun; eauto.
      - rewrite A3 in B3. injection B3 as <-. rewrite (parsed_all_fun _ _ _ _ _ A4 _ B4) in A5.
        assert (Ec : entry vc name = entry vb name) by (destruct X3 as [X3|[X3 _]]; congruence).
        split; [congruence|tauto]. }
    destruct (occurrences (pr_options p2) name) as [|x l] eqn:Eo.
    - apply (D p1 p2 u1 u2 vm vm1 vm2 vm1' vm2'); auto; intros A; apply A; exact Eo.
    - assert (M2 : mentions p2 name) by (unfold mentions; rewrite Eo; discriminate).
      destruct (D p2 p1 u2 u1 vm vm1' vm2' vm1 vm2) as [D1 D2]; auto; [intros A; apply (Hdis name Hne); auto|].
      split; [auto|tauto]. }
  split; [|intros name Hne; now apply K].
  intros [|c name]; [|apply K; discriminate].
  rewrite (store_nil _ _ _ _ _ S2), (store_nil _ _ _ _ _ S1), (store_nil _ _ _ _ _ S2'), (store_nil _ _ _ _ _ S1'). reflexivity.
Qed.
