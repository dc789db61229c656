(** Claim C123: programs whose sources have different descriptions. *)

From Coq Require Import List Ascii String NArith ZArith Bool Arith Lia.
From Verif Require Import Base Errors Spec BaseFacts Values OptDesc SpecLookup Positional Cmdline
  Parsers VarMap SpecCmdline SpecStore StoreFacts SemFacts SpecEnd EndFacts SpecSeveral SeveralFacts Samples.
From Verif Require PropStore PropEnd.
Import ListNotations.

(** C123. The variable of a non-composing option gets, once, the value of the first source that mentions the option; if none does,
    the default, provided that some source knows the option; otherwise nothing. *)
Theorem C123_precedence : forall h vm ev d name lexical_cast utf8_to_local tv addr,
  stores vm_new h vm -> notify vm = (ev, Ok tt) -> name <> [] -> one_meaning h d name -> sole_owner h d addr ->
  od_sem d = typed lexical_cast utf8_to_local tv -> tv_composing tv = false -> tv_store_to tv = Some addr ->
  (forall before p utf8 after, h = before ++ (p, utf8) :: after -> never_mentioned before name -> mentions p name ->
     exists x, parsed_all (od_sem d) utf8 None (occurrences (pr_options p) name) (Some x) /\ written addr ev = [x])
  /\ (never_mentioned h name -> known h d -> written addr ev = match tv_default tv with Some (x, _) => [x] | None => [] end)
  /\ (never_mentioned h name -> ~ known h d -> written addr ev = []).
Proof.
  intros h vm ev d name lc ul tv addr H Hn Hne Hm Hown Hsem Hco Hto.
  pose proof (several_writes lc ul d name tv addr Hne Hsem Hto h vm ev H Hn Hm Hown) as Hw. split; [|split].
  - intros before p utf8 after -> Hb Hmp.
    assert (Hr : resolves p name d).
    { destruct (proj1 (stores_app _ _ _ _) H) as (vm1 & H1 & H2). inversion H2 as [|? ? ? vm2 ? ? S2 _]; subst.
      destruct (store_entry _ _ _ _ name S2 Hne) as (ds & Eds & [(Ho & _)|(_ & _ & d' & _ & Hd & _)]).
      - exfalso. destruct Ho as [Ho|Ho]; [now apply Hmp|].
        destruct (stores_unmentioned _ _ _ _ H1 Hne Hb) as [Hfin _]. apply Hfin in Ho. exact Ho.
      - exists ds. split; [assumption|]. destruct Hm as [_ Hm].
        destruct (Hm p utf8 ds) as (_ & M2 & _); [apply in_or_app; right; now left|assumption|].
        now rewrite <- (M2 d' Hd). }
    destruct (PropStore.C36_first_source_wins before p utf8 after vm name d H Hne Hb Hmp Hr) as (a & Hp & He).
    { now rewrite Hsem. }
    rewrite He in Hw. destruct Hw as (x & Ex & Hw). cbn [vv_value] in Ex. subst a. eauto.
  - intros Hnm Hk. rewrite (proj1 (several_default lc ul d name tv Hne Hsem h vm H Hm Hnm) Hk) in Hw.
    destruct (tv_default tv) as [[x t]|]; [|assumption]. destruct Hw as (y & Ey & Hw). cbn [vv_value] in Ey. congruence.
  - intros Hnm Hk. now rewrite (proj2 (several_default lc ul d name tv Hne Hsem h vm H Hm Hnm) Hk) in Hw.
Qed.
Print Assumptions C123_precedence.

(** C123. The variable of a composing vector gets the values of all sources, in order. *)
Theorem C123_composing : forall h vm ev d name lexical_cast utf8_to_local tv t addr,
  stores vm_new h vm -> notify vm = (ev, Ok tt) -> name <> [] -> one_meaning h d name -> sole_owner h d addr ->
  od_sem d = typed lexical_cast utf8_to_local tv -> tv_composing tv = true -> tv_type tv = TVec t -> tv_implicit tv = None ->
  tv_store_to tv = Some addr -> ~ never_mentioned h name ->
  exists tokss ys,
    Forall2 (fun pu toks => decoded utf8_to_local (snd pu) (List.concat (occurrences (pr_options (fst pu)) name)) toks) h tokss
    /\ Forall2 (converts lexical_cast t) (List.concat tokss) ys /\ written addr ev = [VVec t ys].
Proof.
  intros h vm ev d name lc ul tv t addr H Hn Hne Hm Hown Hsem Hco Ht Hi Hto Hmen.
  pose proof (several_writes lc ul d name tv addr Hne Hsem Hto h vm ev H Hn Hm Hown) as Hw.
  destruct (PropStore.C37_vector_concatenates lc ul tv t h vm name H Hne Ht Hco Hi) as (tokss & ys & T & Y & v & Ev & Vv & _); auto.
  - intros p u d' Hin (ds & Eds & Hf). destruct Hm as [_ Hm]. destruct (Hm p u ds Hin Eds) as (_ & M2 & _). now rewrite (M2 d' Hf).
  - exists tokss, ys. split; [assumption|]. split; [assumption|]. rewrite Ev in Hw. destruct Hw as (x & Ex & ->). congruence.
Qed.
Print Assumptions C123_composing.

(** C123. Calling [notify] also between the sources makes no difference for what the variable holds in the end. *)
Theorem C123_in_between : forall h1 h2 vm1 vm2 ev1 ev2 d name lexical_cast utf8_to_local tv addr old,
  stores vm_new h1 vm1 -> notify vm1 = (ev1, Ok tt) -> stores vm1 h2 vm2 -> notify vm2 = (ev2, Ok tt) ->
  name <> [] -> one_meaning (h1 ++ h2) d name -> sole_owner (h1 ++ h2) d addr ->
  od_sem d = typed lexical_cast utf8_to_local tv -> tv_store_to tv = Some addr ->
  afterwards addr old (ev1 ++ ev2) = afterwards addr old ev2.
Proof.
  intros h1 h2 vm1 vm2 ev1 ev2 d name lc ul tv addr old S1 N1 S2 N2 Hne Hm Hown Hsem Hto.
  assert (S : stores vm_new (h1 ++ h2) vm2) by (apply stores_app; eauto).
  pose proof (several_writes lc ul d name tv addr Hne Hsem Hto _ _ _ S N2 Hm Hown) as W2.
  pose proof (several_writes lc ul d name tv addr Hne Hsem Hto _ _ _ S1 N1 (meaning_app _ _ _ _ Hm) (owner_app _ _ _ _ Hown)) as W1.
  unfold afterwards. rewrite written_app. destruct (entry vm2 name) as [v2|] eqn:E2.
  - destruct W2 as (x & _ & ->). now rewrite last_last.
  - rewrite W2, app_nil_r. destruct (entry vm1 name) as [v1|] eqn:E1; [|now rewrite W1].
    exfalso. apply (stores_keeps_entry _ _ _ name S2 Hne); congruence.
Qed.
Print Assumptions C123_in_between.

(** The command line may give limit, run.path and fast, the config file only the first two. *)
Definition given_as (name : str) (values : list str) : popt := mk_popt name (-1) values [] false false.
Definition file_ds : list option_description := [PropEnd.o_limit; PropEnd.o_path].
Definition line_src : parsed_options := mk_parsed [given_as $"run.path" [$"a"]; given_as $"fast" []] (Some PropEnd.prog_ds) 0.
Definition file_src : parsed_options := mk_parsed [given_as $"limit" [$"8"]; given_as $"run.path" [$"b"]] (Some file_ds) 0.
Definition ex_h : history := [(line_src, false); (file_src, false)].

(** C123. The option must be the same in all descriptions.  If it is declared twice, with the same names, type and default but with
    two variables, then a value from the second source goes to the second variable, and the first is not assigned at all, not even
    its default. *)
Theorem C123_declared_twice_refuted :
  exists d1 d2 tv1 tv2 p1 p2 vm ev,
    od_sem d1 = typed lex local tv1 /\ od_sem d2 = typed lex local tv2
    /\ od_short d1 = od_short d2 /\ od_longs d1 = od_longs d2 /\ tv_type tv1 = tv_type tv2 /\ tv_default tv1 = tv_default tv2
    /\ tv_default tv1 = Some (VLex 0 10, $"10") /\ tv_store_to tv1 = Some 1 /\ tv_store_to tv2 = Some 5
    /\ pr_desc p1 = Some [d1] /\ pr_desc p2 = Some [d2]
    /\ stores vm_new [(p1, false); (p2, false)] vm /\ notify vm = (ev, Ok tt)
    /\ written 1 ev = [] /\ written 5 ev = [VLex 0 8].
Proof.
  set (tv2 := mk_typed (TLex 0) (Some 5) [] (Some (VLex 0 10, $"10")) None false false false false None).
  set (p1 := mk_parsed [] (Some [PropEnd.o_limit]) 0).
  set (p2 := mk_parsed [given_as $"limit" [$"8"]] (Some [mk_od $"-l" [$"limit"] $"limit" (typed lex local tv2)]) 0).
  exists PropEnd.o_limit, (mk_od $"-l" [$"limit"] $"limit" (typed lex local tv2)), PropEnd.tlimit, tv2, p1, p2.
  exists (fst (PropStore.run_all vm_new [(p1, false); (p2, false)])). eexists.
  repeat (split; [reflexivity|]). split; [apply PropStore.run_all_stores; reflexivity|]. split; [reflexivity|]. split; reflexivity.
Qed.
Print Assumptions C123_declared_twice_refuted.

Lemma mentions_key p k : mentions p k -> In k (map po_key (pr_options p)).
Proof.
  unfold mentions, occurrences. induction (pr_options p) as [|o os IH]; cbn [filter map]; [congruence|].
  destruct (str_eqb_spec (po_key o) k) as [<-|]; [now left|]. cbn [andb]. intros H. right. now apply IH.
Qed.

Definition ex_names : list (option_description * str) :=
  [(PropEnd.o_limit, $"limit"); (PropEnd.o_path, $"run.path"); (PropEnd.o_fast, $"fast")].

Lemma ex_same d d' name : In (d, name) ex_names -> In (d', name) ex_names -> d' = d.
Proof.
  intros H1 [H|[H|[H|[]]]]; apply pair_equal_spec in H as [<- <-]; (destruct H1 as [H|[H|[H|[]]]]; apply pair_equal_spec in H as [<- H];
    try reflexivity; discriminate).
Qed.

Lemma ex_named d n1 n2 : In (d, n1) ex_names -> In (d, n2) ex_names -> n1 = n2.
Proof.
  assert (L : forall n, In (d, n) ex_names -> od_longs d = [n]).
  { intros n [H|[H|[H|[]]]]; apply pair_equal_spec in H as [<- <-]; reflexivity. }
  intros H1 H2. apply L in H1, H2. congruence.
Qed.

Lemma find_line name d : In (d, name) ex_names -> find PropEnd.prog_ds name false false false = Ok d.
Proof. intros [H|[H|[H|[]]]]; apply pair_equal_spec in H as [<- <-]; reflexivity. Qed.

Lemma find_file name d : In (d, name) ex_names ->
  find file_ds name false false false = Ok d \/ exists e, find file_ds name false false false = Throw e.
Proof. intros [H|[H|[H|[]]]]; apply pair_equal_spec in H as [<- <-]; [left; reflexivity|left; reflexivity|right; eexists; reflexivity]. Qed.

Lemma Ok_inj {A} (x y : A) : Ok x = Ok y -> x = y.
Proof. congruence. Qed.

Lemma ex_meaning d name : In (d, name) ex_names -> one_meaning ex_h d name.
Proof.
  intros Hd. assert (Hl : od_longs d = [name] /\ In d PropEnd.prog_ds /\ name <> []).
  { destruct Hd as [H|[H|[H|[]]]]; apply pair_equal_spec in H as [<- <-]; (split; [reflexivity|]; split; [cbn; tauto|discriminate]). }
  destruct Hl as (Hl & Hin & Hne). split; [now apply PropEnd.prog_key|].
  assert (K : forall d', In d' PropEnd.prog_ds -> is_key d' [] name -> d' = d).
  { intros d' Hd' Hk. apply PropEnd.prog_key in Hk; [|assumption|assumption]. apply ex_same with name; [assumption|].
    destruct Hd' as [<-|[<-|[<-|[]]]]; cbn [od_longs PropEnd.o_limit PropEnd.o_path PropEnd.o_fast] in Hk; injection Hk as <-; cbn; tauto. }
  assert (N : forall k, In k [$"run.path"; $"fast"; $"limit"] -> exists d', In (d', k) ex_names).
  { intros k [<-|[<-|[<-|[]]]]; eexists; cbn; eauto. }
  assert (M : forall p u, In (p, u) ex_h -> forall k, mentions p k -> exists d', In (d', k) ex_names).
  { intros p u [[= <- _]|[[= <- _]|[]]] k Hk; apply mentions_key in Hk; apply N; cbn in *; tauto. }
  intros p u ds Hi E. assert (Hm := M p u Hi). destruct Hi as [[= <- <-]|[[= <- <-]|[]]]; apply (f_equal (fun o => match o with Some l => l | None => [] end)) in E; cbn [pr_desc line_src file_src] in E; subst ds; (split; [|split]).
  - exact K.
  - intros d' F. rewrite (find_line name d Hd) in F. now apply Ok_inj in F.
  - intros k Hk F. destruct (Hm k Hk) as [d' Hd']. rewrite (find_line k d' Hd') in F. apply Ok_inj in F. subst d'.
    exact (ex_named d k name Hd' Hd).
  - intros d' Hd'. apply K. destruct Hd' as [<-|[<-|[]]]; cbn; tauto.
  - intros d' F. destruct (find_file name d Hd) as [X|[e X]]; rewrite X in F; [now apply Ok_inj in F|discriminate].
  - intros k Hk F. destruct (Hm k Hk) as [d' Hd']. destruct (find_file k d' Hd') as [X|[e X]]; rewrite X in F; [|discriminate].
    apply Ok_inj in F. subst d'. exact (ex_named d k name Hd' Hd).
Qed.

Lemma ex_owner d addr : In (d, addr) [(PropEnd.o_limit, 1); (PropEnd.o_path, 2)] -> sole_owner ex_h d addr.
Proof.
  intros Hd. assert (O : owned PropEnd.prog_ds d addr).
  { apply PropEnd.prog_owned; destruct Hd as [[= <- <-]|[[= <- <-]|[]]]; cbn; auto. }
  intros p u ds [[= <- <-]|[[= <- <-]|[]]] [= <-]; [exact O|].
  intros d' Hd'. apply O. destruct Hd' as [<-|[<-|[]]]; cbn; tauto.
Qed.

Example C123_ex : exists vm1 vm ev1 ev,
  stores vm_new [(line_src, false)] vm1 /\ notify vm1 = (ev1, Ok tt) /\ stores vm1 [(file_src, false)] vm
  /\ stores vm_new ex_h vm /\ notify vm = (ev, Ok tt)
  /\ one_meaning ex_h PropEnd.o_limit $"limit" /\ sole_owner ex_h PropEnd.o_limit 1 /\ known ex_h PropEnd.o_limit
  /\ one_meaning ex_h PropEnd.o_path $"run.path" /\ sole_owner ex_h PropEnd.o_path 2
  /\ written 1 ev1 = [VLex 0 10] /\ written 1 ev = [VLex 0 8]
  /\ written 2 ev = [VVec TString [VString $"a"; VString $"b"]] /\ written 3 ev = [VBool true].
Proof.
  exists (fst (PropStore.run_all vm_new [(line_src, false)])), (fst (PropStore.run_all vm_new ex_h)).
  eexists. eexists.
  assert (S1 : stores vm_new [(line_src, false)] (fst (PropStore.run_all vm_new [(line_src, false)]))).
  { apply PropStore.run_all_stores. reflexivity. }
  assert (S : stores vm_new ex_h (fst (PropStore.run_all vm_new ex_h))).
  { apply PropStore.run_all_stores. reflexivity. }
  split; [exact S1|]. split; [reflexivity|]. split; [econstructor; [reflexivity|constructor]|]. split; [exact S|]. split; [reflexivity|].
  split; [apply ex_meaning; cbn; auto|]. split; [apply ex_owner; cbn; auto|].
  split; [exists line_src, false, PropEnd.prog_ds; cbn; auto|].
  split; [apply ex_meaning; cbn; auto|]. split; [apply ex_owner; cbn; auto|].
  repeat (split; [reflexivity|]). reflexivity.
Qed.
