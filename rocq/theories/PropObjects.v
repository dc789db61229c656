(** C76-C78: reading values by type, adding descriptions, chains of maps. *)

From Coq Require Import List Ascii String NArith ZArith Bool Arith Lia.
From Verif Require Import Base Errors Spec BaseFacts Values OptDesc SpecLookup LookupFacts Positional Cmdline Parsers VarMap
  Objects SpecStore StoreFacts SemFacts SpecEnd EndFacts SpecObjects ObjectFacts Samples Witness.
From Verif Require PropStore.
Import ListNotations.

(** ** [as] *)

(** C76. If all sources are stored and each name stands for one type, every entry can be
    read as the type of its option, and gives the stored value; *)
Theorem C76_declared_type : forall ty h vm name,
  stores vm_new h vm -> consistent ty h -> name <> [] -> entry vm name <> None ->
  exists x, vv_as (ty name) (vm_get vm name) = Ok x /\ vv_value (vm_get vm name) = Some x.
Proof.
  intros ty h vm name H Hc Hne He. unfold vm_get. unfold entry in He. destruct (sm_find name (vm_map vm)) as [v|] eqn:Ev; [|congruence].
  destruct (stored_as ty h vm name v H Hc Hne Ev) as (x & Hx & Ht). exists x. split; auto. apply as_value. auto.
Qed.
Print Assumptions C76_declared_type.

(** C76. reading it as any other type throws [bad_any_cast], even if some calls of [store]
    have failed; *)
Theorem C76_other_type : forall ty h vm name t,
  calls vm_new h vm -> consistent ty h -> t <> ty name ->
  vv_as t (vm_get vm name) = Throw (plain_exn bad_any_cast).
Proof.
  intros ty h vm name t H Hc Hne. apply as_other. intros x Hx Ht.
  unfold vm_get in Hx. destruct (sm_find name (vm_map vm)) as [v|] eqn:Ev; [|discriminate].
  destruct (calls_typed ty _ _ _ H Hc (typed_new ty) name v Ev) as [Hf _]. rewrite Hx in Hf. cbn in Hf. congruence.
Qed.
Print Assumptions C76_other_type.

(** C76. so does reading a name that has no entry. *)
Theorem C76_absent : forall vm name t,
  entry vm name = None -> vv_as t (vm_get vm name) = Throw (plain_exn bad_any_cast).
Proof. intros vm name t H. unfold vm_get. unfold entry in H. now rewrite H. Qed.
Print Assumptions C76_absent.

(** C76. The same holds for a chain of maps: if some map has an entry, the value can be read. *)
Theorem C76_chain : forall ty vm next name,
  Forall (fun m => exists h, stores vm_new h m /\ consistent ty h) (vm :: next) -> name <> [] ->
  Exists (fun m => entry m name <> None) (vm :: next) ->
  exists x, vv_as (ty name) (chain_get vm next name) = Ok x.
Proof.
  intros ty vm next name Hall Hne Hex.
  assert (Hty : forall x, vv_value (chain_get vm next name) = Some x -> value_ty x = ty name).
  { apply (chain_value (fun v => forall x, vv_value v = Some x -> value_ty x = ty name)).
    eapply Forall_impl; [|exact Hall]. intros m (h & H & Hc) x Hx. cbn beta.
    unfold vm_get in Hx. destruct (sm_find name (vm_map m)) as [v|] eqn:Ev; [|discriminate].
    destruct (stored_as ty h m name v H Hc Hne Ev) as (y & Hy & Ht). congruence. }
  assert (Hn : vv_value (chain_get vm next name) <> None).
  { apply chain_nonempty. rewrite Exists_exists in Hex |- *. destruct Hex as (m & Hin & Hm). exists m. split; auto.
    rewrite Forall_forall in Hall. destruct (Hall m Hin) as (h & H & Hc).
    destruct (C76_declared_type ty h m name H Hc Hne Hm) as (x & _ & ->). discriminate. }
  destruct (vv_value (chain_get vm next name)) as [x|] eqn:E; [|congruence]. exists x. apply as_value. auto.
Qed.
Print Assumptions C76_chain.

(** C76. After a failed [store], a name that [count] reports can fail to be readable as its
    own type. *)
Theorem C76_failed_store_refuted :
  exists p vm e, store p vm_new false = (vm, Throw e) /\ consistent (fun _ => TString) [(p, false)]
    /\ entry vm $"mode" <> None
    /\ vv_as TString (vm_get vm $"mode") = Throw (plain_exn bad_any_cast).
Proof.
  exists (mk_parsed [PropStore.given_as $"mode" [$"a"; $"b"]] (Some [PropStore.o_mode]) 0). eexists. eexists.
  split; [PropStore.run_store|]. split; [|split; [vm_compute; discriminate|reflexivity]].
  intros q u ds name d [E|[]] Hds Hd. injection E as <- <-. injection Hds as <-.
  assert (Hin : In d [PropStore.o_mode]).
  { destruct Hd as [Hd|[Hd _]]; auto. unfold find in Hd. apply bind_Ok in Hd.
    destruct Hd as ([x|] & Hd & E); [|discriminate]. injection E as <-. now apply find_found_In in Hd. }
  left. exists lex, local. destruct Hin as [<-|[]].
  eexists; (split; [reflexivity|]; split; [reflexivity|]; split; [split; exact I || reflexivity|discriminate]).
Qed.
Print Assumptions C76_failed_store_refuted.

Example C76_ex :
  let p := mk_parsed [PropStore.given_as $"number" [$"5"]] (Some [o_number; o_level]) 0 in
  exists vm, stores vm_new [(p, false)] vm /\ consistent (fun _ => TLex 0) [(p, false)]
    /\ entry vm $"number" <> None /\ entry vm $"level" = None
    /\ vv_as (TLex 0) (vm_get vm $"number") = Ok (VLex 0 5)
    /\ vv_as TString (vm_get vm $"number") = Throw (plain_exn bad_any_cast).
Proof.
  intros p. exists (fst (PropStore.run_all vm_new [(p, false)])). split; [PropStore.run_stores|].
  split; [|split; [apply some_ex; vm_compute; reflexivity|split; [vm_compute; reflexivity|split; vm_compute; reflexivity]]].
  intros q u ds name d [E|[]] Hds Hd. injection E as <- <-. injection Hds as <-.
  assert (Hin : In d [o_number; o_level]).
  { destruct Hd as [Hd|[Hd _]]; auto. unfold find in Hd. apply bind_Ok in Hd.
    destruct Hd as ([x|] & Hd & E); [|discriminate]. injection E as <-. now apply find_found_In in Hd. }
  left. exists lex, local.
  destruct Hin as [<-|[<-|[]]]; eexists; (split; [reflexivity|]; split; [reflexivity|]; split; [split; exact I || reflexivity|discriminate]).
Qed.

(** ** Descriptions *)

(** C77. A program that adds no description to itself can regard each description as a value
    of its own, of which adding and copying take a snapshot: its calls return, and every
    variable shows what that reading says; *)
Theorem C77_value_semantics : forall calls vals,
  Forall (fun c => ~ to_itself c) calls -> value_run [] calls = Ok vals ->
  exists fuel0 m, (forall fuel, fuel0 <= fuel -> desc_run fuel (mk_dm [] []) calls = Ok m)
  /\ Forall2 (views (dm_cells m)) (dm_vars m) vals.
Proof.
  intros cs vals Hno H. destruct (run_value cs (mk_dm [] []) [] vals sound_empty (Forall2_nil _) Hno H) as (f & m & H1 & _ & H2). eauto.
Qed.
Print Assumptions C77_value_semantics.

(** C77. and each run has such a reading. *)
Theorem C77_all_runs : forall calls fuel m,
  Forall (fun c => ~ to_itself c) calls -> desc_run fuel (mk_dm [] []) calls = Ok m ->
  exists vals, value_run [] calls = Ok vals /\ Forall2 (views (dm_cells m)) (dm_vars m) vals.
Proof.
  intros cs fuel m Hno H. destruct (run_back cs _ [] _ _ sound_empty (Forall2_nil _) Hno H) as (v & H1 & _ & H2). eauto.
Qed.
Print Assumptions C77_all_runs.

(** C77. In particular calls on other variables, such as a description that was added to this
    one or that this one was added to, change nothing. *)
Theorem C77_untouched : forall calls1 calls2 fuel m1 m2 x p t,
  Forall (fun c => ~ to_itself c) (calls1 ++ calls2) ->
  desc_run fuel (mk_dm [] []) calls1 = Ok m1 -> desc_run fuel m1 calls2 = Ok m2 ->
  Forall (fun c => ~ on c x) calls2 ->
  nth_error (dm_vars m1) x = Some p -> views (dm_cells m1) p t ->
  nth_error (dm_vars m2) x = Some p /\ views (dm_cells m2) p t.
Proof.
  intros cs1 cs2 fuel m1 m2 x p t Hno H1 H2 Hon Hx Ht. apply Forall_app in Hno. destruct Hno as [Hno1 Hno2].
  destruct (run_back cs1 _ [] _ _ sound_empty (Forall2_nil _) Hno1 H1) as (v1 & E1 & S1 & V1).
  destruct (run_back cs2 _ _ _ _ S1 V1 Hno2 H2) as (v2 & E2 & S2 & V2).
  destruct (Forall2_nth1 _ _ _ V1 _ _ Hx) as (t' & Et & Ht'). rewrite (views_fun _ _ _ Ht' _ Ht) in Et.
  pose proof (value_run_untouched _ _ _ _ _ E2 Hon Et) as Ex.
  destruct (Forall2_nth _ _ _ V2 _ _ Ex) as (p' & Hp' & Hv').
  assert (Hsame : nth_error (dm_vars m2) x = Some p) by (eapply vars_grow_run; eauto).
  split; auto. rewrite Hsame in Hp'. injection Hp' as <-. exact Hv'.
Qed.
Print Assumptions C77_untouched.

(** C77. Adding a description that has options to itself never returns. *)
Theorem C77_self_add_refuted : forall fuel m x p o,
  nth_error (dm_vars m) x = Some p -> nth_error (dm_cells m) p = Some o -> do_options o <> [] ->
  desc_step fuel m (DAddGroup x x) = NoFuel.
Proof.
  intros fuel m x p o Hx Hp Ho. cbn [desc_step]. rewrite Hx, Hp. cbn [bind fst snd].
  rewrite (add_cells_self p fuel _ (do_add_pointer o (List.length (dm_cells m)))); auto.
  - apply set_cell_same. rewrite app_length. apply nth_lt in Hp. lia.
  - cbn. destruct (do_options o); [congruence|cbn; lia].
Qed.
Print Assumptions C77_self_add_refuted.

Example C77_ex :
  let calls1 := [DNew $"Generic" 80 40; DNew $"All" 80 40; DAdd 0 o_help; DAddGroup 1 0] in
  let calls2 := [DAdd 0 o_verbose; DCopy 1; DAdd 2 o_output] in
  exists m1 m2 t, Forall (fun c => ~ to_itself c) (calls1 ++ calls2)
    /\ desc_run 10 (mk_dm [] []) calls1 = Ok m1 /\ desc_run 10 m1 calls2 = Ok m2
    /\ Forall (fun c => ~ on c 1) calls2 /\ nth_error (dm_vars m1) 1 = Some 1 /\ views (dm_cells m1) 1 t
    /\ ods_list t = [o_help] /\ map ods_caption (ods_groups t) = [$"Generic"]
    /\ option_map do_options (nth_error (dm_cells m2) 0) = Some [(o_help, false); (o_verbose, false)].
Proof.
  eexists. eexists. eexists. split; [repeat constructor; cbn; lia|]. split; [reflexivity|]. split; [reflexivity|].
  split; [repeat constructor; cbn; lia|]. split; [reflexivity|]. split.
  - econstructor; [reflexivity|]. cbn. apply vw_cons; [econstructor; [reflexivity|apply vw_nil]|apply vw_nil].
  - split; [reflexivity|]. split; reflexivity.
Qed.

(** ** Chains of maps *)

(** C78. If the chain from a map ends, looking up a name gives what the list of its maps says
    (see C43); *)
Theorem C78_list : forall mem a vm next name,
  links mem a (vm :: next) ->
  forall fuel, List.length next < fuel -> map_index fuel mem a name = Ok (chain_get vm next name).
Proof. intros mem a vm next name H. now apply index_links. Qed.
Print Assumptions C78_list.

(** C78. if the chain reaches an explicit value, the first of them is found, whatever comes
    behind it, even if the chain goes round in circles; *)
Theorem C78_first_explicit : forall mem a n b mo name,
  leads mem a n b -> nth_error mem b = Some mo -> explicit (vm_get (mo_map mo) name) ->
  (forall k c, k < n -> leads mem a k c -> ~ explicit_at mem c name) ->
  forall fuel, n < fuel -> map_index fuel mem a name = Ok (vm_get (mo_map mo) name).
Proof. intros. eapply index_explicit; eauto. Qed.
Print Assumptions C78_first_explicit.

(** C78. if the chain has neither an end nor an explicit value, the lookup never returns. *)
Theorem C78_endless : forall mem a name,
  (forall n, exists b mo, leads mem a n b /\ nth_error mem b = Some mo /\ mo_next mo <> None) ->
  (forall n b, leads mem a n b -> ~ explicit_at mem b name) ->
  forall fuel, map_index fuel mem a name = NoFuel.
Proof.
  intros mem a name H Hno fuel. apply index_endless. intros n. destruct (H n) as (b & mo & H1 & H2 & H3).
  exists b, mo. repeat (split; auto). intros Hx. apply (Hno n b H1). exists mo. auto.
Qed.
Print Assumptions C78_endless.

(** C78. [next] replaces the continuation of one map. *)
Theorem C78_next : forall mem a b c mo,
  nth_error mem a = Some mo ->
  nth_error (set_next mem a b) c
  = if Nat.eqb c a then Some (mk_mo (mo_map mo) b) else nth_error mem c.
Proof.
  intros mem a b c mo Ha. unfold set_next. rewrite Ha. destruct (Nat.eqb_spec c a) as [E|Hn].
  - subst c. apply set_cell_same. eapply nth_lt; eauto.
  - rewrite set_cell_other; auto.
Qed.
Print Assumptions C78_next.

(** One map with a default for [mode]; its next map is itself. *)
Definition circle_vm : variables_map := fst (PropStore.run_all vm_new [(PropStore.src1, false)]).

Definition circle : list map_object := set_next [mk_mo circle_vm None] 0 (Some 0).

Lemma circle_alone : nth_error circle 0 = Some (mk_mo circle_vm (Some 0)).
Proof. unfold circle. generalize circle_vm. reflexivity. Qed.

Lemma circle_leads n b : leads circle 0 n b -> b = 0.
Proof.
  intros H. remember 0 as a eqn:Ea in H. induction H as [|a mo a' n b Ha Hn Hl IH]; auto. subst a.
  rewrite circle_alone in Ha. injection Ha as <-. cbn in Hn. injection Hn as <-. auto.
Qed.

Lemma circle_round n : leads circle 0 n 0.
Proof. induction n; econstructor; eauto; [apply circle_alone|reflexivity]. Qed.

Lemma two_links vm : links [mk_mo vm_new (Some 1); mk_mo vm None] 0 [vm_new; vm].
Proof. eapply (lk_next _ _ (mk_mo vm_new (Some 1))); [reflexivity|reflexivity|]. eapply (lk_last _ _ (mk_mo _ None)); reflexivity. Qed.

Example C78_ex :
  (forall n, exists b mo, leads circle 0 n b /\ nth_error circle b = Some mo /\ mo_next mo <> None)
  /\ (forall n b, leads circle 0 n b -> ~ explicit_at circle b $"mode")
  /\ explicit_at circle 0 $"include"
  /\ (exists vm, links [mk_mo vm_new (Some 1); mk_mo vm None] 0 [vm_new; vm] /\ explicit (vm_get vm $"include")).
Proof.
  split.
  { intros n. exists 0. eexists. split; [apply circle_round|]. split; [apply circle_alone|discriminate]. }
  split.
  { intros n b Hl (mo & Hb & H1 & H2). apply circle_leads in Hl. subst b. rewrite circle_alone in Hb. injection Hb as <-.
    revert H1 H2. cbn [mo_map]. vm_compute. intros H1 H2. discriminate || congruence. }
  split.
  { eexists. split; [apply circle_alone|]. split; vm_compute; [discriminate|reflexivity]. }
  exists circle_vm. split; [apply two_links|]. split; vm_compute; [discriminate|reflexivity].
Qed.
