(** C106: config files put together from parts. *)

From Coq Require Import List Ascii String NArith ZArith Bool Lia Permutation.
From Verif Require Import Base Errors Spec BaseFacts Values OptDesc Cmdline ConfigFile SpecConfig ConfigFacts SpecParts Samples.
From Verif Require PropConfig.
Import ListNotations.

(** ** Entries *)

Definition unsectioned (es : list entry) : Prop := forall s, ~ In (Section_ s) es.

(** The prefix in force after these entries. *)
Definition leaves (sec : str) (es : list entry) (sec' : str) : Prop :=
  (sec' = sec /\ unsectioned es) \/ exists ea s eb, es = ea ++ Section_ s :: eb /\ unsectioned eb /\ section_name s sec'.

Lemma leaves_cons sec e es sec' : (forall s, e <> Section_ s) -> leaves sec es sec' -> leaves sec (e :: es) sec'.
Proof.
  intros He [[-> H]|(ea & s & eb & -> & H)].
  - left. split; [reflexivity|]. intros s [E|Hi]; [now apply (He s)|now apply (H s)].
  - right. exists (e :: ea), s, eb. auto.
Qed.

Lemma reads_on ds allow sec es1 r1 : reads ds allow sec es1 r1 -> forall os1, r1 = Ok os1 ->
  exists sec', leaves sec es1 sec' /\ forall es2 r2, reads ds allow sec' es2 r2 -> reads ds allow sec (es1 ++ es2) (followed_by (Ok os1) r2).
Proof.
  induction 1 as [sec|sec es r H IH|s sec' sec es r Hs H IH|sec es|sec n v es r Ha H IH
    |sec n v es r Ha Hal H IH|sec n v es Ha Hal|sec s es]; intros os1 E; try discriminate.
  - injection E as <-. exists sec. split; [left; split; [reflexivity|intros s []]|]. intros es2 r2 H2. destruct r2; exact H2.
  - destruct (IH _ E) as (sec' & L & IH'). exists sec'. split; [apply leaves_cons; [discriminate|exact L]|]. intros es2 r2 H2. cbn [app]. constructor. auto.
  - destruct (IH _ E) as (sec'' & L & IH'). exists sec''. split; [|intros es2 r2 H2; cbn [app]; econstructor; eauto].
    right. destruct L as [[-> L]|(ea & s' & eb & -> & L)]; [exists [], s, es; auto|exists (Section_ s :: ea), s', eb; auto].
  - destruct r as [os| | |]; try discriminate. injection E as <-.
    destruct (IH _ eq_refl) as (sec' & L & IH'). exists sec'. split; [apply leaves_cons; [discriminate|exact L]|]. intros es2 r2 H2. cbn [app].
    replace (followed_by (Ok (config_option (sec ++ n) v false :: os)) r2)
      with (let* o := followed_by (Ok os) r2 in Ok (config_option (sec ++ n) v false :: o)) by now destruct r2.
    apply rd_assign; auto.
  - destruct r as [os| | |]; try discriminate. injection E as <-.
    destruct (IH _ eq_refl) as (sec' & L & IH'). exists sec'. split; [apply leaves_cons; [discriminate|exact L]|]. intros es2 r2 H2. cbn [app].
    replace (followed_by (Ok (config_option (sec ++ n) v true :: os)) r2)
      with (let* o := followed_by (Ok os) r2 in Ok (config_option (sec ++ n) v true :: o)) by now destruct r2.
    apply rd_unregistered; auto.
Qed.

Lemma reads_failed ds allow sec es1 r1 : reads ds allow sec es1 r1 -> fails r1 -> forall es2, reads ds allow sec (es1 ++ es2) r1.
Proof.
  induction 1 as [sec|sec es r H IH|s sec' sec es r Hs H IH|sec es|sec n v es r Ha H IH
    |sec n v es r Ha Hal H IH|sec n v es Ha Hal|sec s es]; intros E es2; cbn [app].
  - exfalso. exact (E [] eq_refl).
  - constructor. auto.
  - econstructor; eauto.
  - constructor.
  - apply rd_assign; [assumption|]. apply IH. intros os ->. exact (E _ eq_refl).
  - apply rd_unregistered; [assumption..|]. apply IH. intros os ->. exact (E _ eq_refl).
  - now apply rd_unknown.
  - constructor.
Qed.

(** ** Texts *)

Lemma named_dec ds : all_named ds \/ ~ all_named ds.
Proof.
  induction ds as [|d ds IH]; [left; constructor|]. destruct IH as [IH|IH]; [|right; intros H; apply IH; now apply Forall_inv_tail in H].
  destruct (od_longs d) as [|[|x n] q] eqn:E.
  - right. intros H. apply Forall_inv in H as (n & [q Hq] & _). congruence.
  - right. intros H. apply Forall_inv in H as (n & [q' Hq] & Hn). congruence.
  - left. constructor; [|exact IH]. exists (x :: n). split; [exists q; exact E|discriminate].
Qed.

(** Either the options are fit for files, or all files fail in the same way. *)
Lemma fit_or_not ds allow : (all_named ds /\ compatible ds) \/ exists r, fails r /\ forall content, config ds allow content = r.
Proof.
  destruct (named_dec ds) as [Hn|Hn].
  - destruct (build_spec ds Hn) as [[Hc _]|[_ [msg E]]]; [now left|right]. exists (Throw (plain_exn (po_error msg))). split; [discriminate|].
    intros content. unfold config, parse_config_file. destruct (cf_allowed ds []) as [al| | |]; cbn [bind] in *; try discriminate; [|congruence].
    destruct (cf_add_options [] al) as [P| | |]; cbn [bind] in *; try discriminate. congruence.
  - right. eexists. split; [|intros content; unfold config; rewrite config_unnamed by exact Hn; reflexivity]. discriminate.
Qed.

Lemma complete_lines a : complete a -> exists ls, no_newlines ls /\ a = unlines ls.
Proof.
  intros H. pose proof (lines_of_total a) as [Hn [E|(ls & l & El & Hl & E)]]; [eauto|]. exfalso.
  destruct H as [->|[t ->]].
  - destruct (unlines ls); cbn in E; [now subst l|discriminate].
  - destruct (exists_last Hl) as (l' & x & ->). rewrite app_assoc in E. apply app_inj_tail in E as [_ <-].
    rewrite El in Hn. apply Forall_app in Hn as [_ Hn]. apply Forall_inv in Hn. apply Hn. apply in_or_app. right. now left.
Qed.

Lemma text_app a ls1 b ls2 : a = unlines ls1 -> no_newlines ls1 -> lines_of b ls2 -> lines_of (a ++ b) (ls1 ++ ls2).
Proof.
  intros -> H1 H2. assert (G := lines_of_total (unlines ls1 ++ b)). now rewrite getline_unlines, (lines_of_getline _ _ H2) in G.
Qed.

Lemma lines_unique c ls ls' : lines_of c ls -> lines_of c ls' -> ls = ls'.
Proof. intros H1 H2. now rewrite <- (lines_of_getline _ _ H1), <- (lines_of_getline _ _ H2). Qed.

Lemma unsectioned_lines ls es : Forall2 line_is ls es -> Forall no_section ls -> unsectioned es.
Proof.
  induction 1 as [|l e ls es Hl _ IH]; intros H s Hi; [destruct Hi|]. destruct Hi as [->|Hi]; [exact (Forall_inv H s Hl)|].
  exact (IH (Forall_inv_tail H) s Hi).
Qed.

Lemma section_twice ea s eb ea' s' eb' : ea ++ Section_ s :: eb = ea' ++ Section_ s' :: eb' -> unsectioned eb -> unsectioned eb' -> s = s'.
Proof.
  revert ea'. induction ea as [|e ea IH]; intros [|e' ea'] H H1 H2; cbn in H; injection H as E1 E2.
  - congruence.
  - exfalso. apply (H1 s'). rewrite E2. apply in_or_app. right. now left.
  - exfalso. apply (H2 s). rewrite <- E2. apply in_or_app. right. now left.
  - eapply IH; eauto.
Qed.

(** ** C106 *)

(** C106. What goes wrong in the first part goes wrong in the whole, whatever follows. *)
Theorem C106_first_failure : forall ds allow a b,
  complete a -> fails (config ds allow a) -> config ds allow (a ++ b) = config ds allow a.
Proof.
  intros ds allow a b Ha Hf. destruct (fit_or_not ds allow) as [[Hn Hc]|(r & _ & Hr)]; [|now rewrite !Hr].
  destruct (complete_lines a Ha) as (ls1 & N1 & E1). destruct (lines_are ls1) as [es1 F1].
  assert (L2 := lines_of_total b). destruct (lines_are (getline_all c_nl b)) as [es2 F2].
  assert (L1 : lines_of a ls1) by (split; [exact N1|now left]).
  pose proof (config_reads ds allow a ls1 es1 Hn Hc L1 F1) as R1.
  pose proof (config_reads ds allow (a ++ b) _ (es1 ++ es2) Hn Hc (text_app a ls1 b _ E1 N1 L2) (Forall2_app F1 F2)) as R.
  eapply reads_fun; [exact R|]. apply reads_failed; assumption.
Qed.
Print Assumptions C106_first_failure.

Lemma append_as ds allow a b b' :
  complete a -> (all_named ds -> compatible ds -> forall es1 es2 sec', (exists ls1, lines_of a ls1 /\ Forall2 line_is ls1 es1) ->
    Forall2 line_is (getline_all c_nl b) es2 -> leaves [] es1 sec' -> (exists os, reads ds allow [] es1 (Ok os)) -> reads ds allow sec' es2 (config ds allow b')) ->
  config ds allow (a ++ b) = followed_by (config ds allow a) (config ds allow b').
Proof.
  intros Ha H. destruct (config ds allow a) as [os1| | |] eqn:Ea;
    try (rewrite C106_first_failure, Ea by (auto; rewrite Ea; discriminate); reflexivity).
  destruct (fit_or_not ds allow) as [[Hn Hc]|(r & Hf & Hr)]; [|exfalso; rewrite Hr in Ea; exact (Hf _ Ea)].
  destruct (complete_lines a Ha) as (ls1 & N1 & E1). destruct (lines_are ls1) as [es1 F1].
  assert (L2 := lines_of_total b). destruct (lines_are (getline_all c_nl b)) as [es2 F2].
  assert (L1 : lines_of a ls1) by (split; [exact N1|now left]).
  pose proof (config_reads ds allow a ls1 es1 Hn Hc L1 F1) as R1. rewrite Ea in R1.
  pose proof (config_reads ds allow (a ++ b) _ (es1 ++ es2) Hn Hc (text_app a ls1 b _ E1 N1 L2) (Forall2_app F1 F2)) as R.
  destruct (reads_on ds allow [] es1 _ R1 os1 eq_refl) as (sec' & L & K).
  eapply reads_fun; [exact R|]. apply K. eapply H; eauto.
Qed.

(** C106. If the first part has no sections, the options of the whole are those of the parts. *)
Theorem C106_sectionless : forall ds allow a b,
  complete a -> sectionless a ->
  config ds allow (a ++ b) = followed_by (config ds allow a) (config ds allow b).
Proof.
  intros ds allow a b Ha Hs. apply append_as; [exact Ha|]. intros Hn Hc es1 es2 sec' (ls1 & L1 & F1) F2 [[-> _]|(ea & s & eb & -> & _)] _.
  - eapply config_reads; eauto. apply lines_of_total.
  - exfalso. apply (unsectioned_lines ls1 _ F1 (Hs _ L1) s). apply in_or_app. right. now left.
Qed.
Print Assumptions C106_sectionless.

(** C106. The same holds if the second part begins with a section. *)
Theorem C106_own_section : forall ds allow a b,
  complete a -> begins_section b ->
  config ds allow (a ++ b) = followed_by (config ds allow a) (config ds allow b).
Proof.
  intros ds allow a b Ha (blanks & rest & Lb & Hb & Hr). apply append_as; [exact Ha|]. intros Hn Hc es1 es2 sec' _ F2 _ _.
  pose proof (config_reads ds allow b _ es2 Hn Hc (lines_of_total b) F2) as R. rewrite (lines_of_getline _ _ Lb) in F2.
  clear Lb. revert es2 F2 R. induction Hb as [|l blanks Hl _ IH]; intros es2 F2 R; cbn [app] in F2.
  - destruct Hr as [->|(l & ls & s & -> & Hs)]; inversion F2 as [|l' e ls' es He F E1 E2]; subst; [inversion R; constructor|].
    pose proof (line_fun _ _ _ He Hs). subst e. inversion R; subst; [eapply rd_section; eauto|apply rd_no_section].
  - inversion F2 as [|l' e ls' es He F E1 E2]; subst. pose proof (line_fun _ _ _ He Hl). subst e. inversion R; subst. constructor. now apply IH.
Qed.
Print Assumptions C106_own_section.

(** C106. Otherwise the second part is read as if it began with the last section of the first. *)
Theorem C106_open_section : forall ds allow a b l,
  complete a -> last_section a l ->
  config ds allow (a ++ b) = followed_by (config ds allow a) (config ds allow (l ++ [c_nl] ++ b)).
Proof.
  intros ds allow a b l Ha (before & aft & s & La & Hl & Haft). apply append_as; [exact Ha|]. intros Hn Hc es1 es2 sec' (ls1 & L1 & F1) F2 Hsec _.
  assert (Nl : without c_nl l) by (destruct La as [N _]; apply Forall_app in N as [_ N]; now apply Forall_inv in N).
  assert (Lb : lines_of (l ++ [c_nl] ++ b) ([l] ++ getline_all c_nl b)).
  { rewrite app_assoc. apply text_app; [cbn; now rewrite app_nil_r|constructor; [exact Nl|constructor]|apply lines_of_total]. }
  pose proof (config_reads ds allow _ _ (Section_ s :: es2) Hn Hc Lb (Forall2_cons l (Section_ s) Hl F2)) as R.
  pose proof (lines_unique _ _ _ L1 La). subst ls1.
  apply Forall2_app_inv_l in F1 as (ea & er & _ & Fr & ->). inversion Fr as [|l' e ls' eb He Fb E1 E2]; subst.
  pose proof (line_fun _ _ _ He Hl). subst e. pose proof (unsectioned_lines _ _ Fb Haft) as Ub.
  destruct Hsec as [[_ U]|(ea' & s' & eb' & E & Ub' & Hs')]; [exfalso; apply (U s), in_or_app; right; now left|].
  pose proof (section_twice _ _ _ _ _ _ E Ub Ub'). subst s'.
  inversion R as [| |s0 sec0 sec1 es0 r0 Hs0 R0| | | | |]; subst.
  - now rewrite (section_name_fun s sec' sec0).
  - exfalso. destruct Hs' as [[[t Ht] _]|[Ht _]]; [destruct t; discriminate|contradiction].
Qed.
Print Assumptions C106_open_section.

(** C106. One of these cases applies. *)
Theorem C106_cases : forall a, sectionless a \/ exists l, last_section a l.
Proof.
  intros a. assert (L := lines_of_total a).
  assert (G : forall ls, Forall no_section ls \/ exists b l c s, ls = b ++ l :: c /\ line_is l (Section_ s) /\ Forall no_section c).
  { induction ls as [|l ls [IH|(b & l' & c & s & -> & H)]]; [left; constructor| |right; exists (l :: b), l', c, s; auto].
    destruct (line_total l) as [e He]. destruct e as [|s|n v|s].
    - left. constructor; [|exact IH]. intros s Hs. discriminate (line_fun _ _ _ He Hs).
    - right. exists [], l, ls, s. auto.
    - left. constructor; [|exact IH]. intros s Hs. discriminate (line_fun _ _ _ He Hs).
    - left. constructor; [|exact IH]. intros s' Hs. discriminate (line_fun _ _ _ He Hs). }
  destruct (G (getline_all c_nl a)) as [H|(b & l & c & s & E & Hl & Hc)].
  - left. intros ls Hls. now rewrite (lines_unique _ _ _ Hls L).
  - right. exists l, b, c, s. rewrite <- E. auto.
Qed.
Print Assumptions C106_cases.

(** C106. So a part of a file, up to the end of a line, can be read if the file can, and gives the first options of it. *)
Theorem C106_truncated : forall ds allow a b os,
  complete a -> config ds allow (a ++ b) = Ok os ->
  exists os1 os2, os = os1 ++ os2 /\ config ds allow a = Ok os1.
Proof.
  intros ds allow a b os Ha H. assert (F : forall r, config ds allow (a ++ b) = followed_by (config ds allow a) r -> exists os1 os2, os = os1 ++ os2 /\ config ds allow a = Ok os1).
  { intros r E. rewrite H in E. destruct (config ds allow a) as [os1| | |]; try discriminate. destruct r as [os2| | |]; try discriminate.
    injection E as ->. eauto. }
  destruct (C106_cases a) as [Hs|[l Hl]]; [exact (F _ (C106_sectionless ds allow a b Ha Hs))|exact (F _ (C106_open_section ds allow a b l Ha Hl))].
Qed.
Print Assumptions C106_truncated.

(** C106. Parts that begin with sections can be exchanged: the options are the same but for their order. *)
Theorem C106_exchange : forall ds allow a b os,
  complete a -> complete b -> begins_section a -> begins_section b -> config ds allow (a ++ b) = Ok os ->
  exists os1 os2, os = os1 ++ os2 /\ config ds allow (b ++ a) = Ok (os2 ++ os1).
Proof.
  intros ds allow a b os Ha Hb Sa Sb H. rewrite C106_own_section in * by assumption.
  destruct (config ds allow a) as [os1| | |]; try discriminate. destruct (config ds allow b) as [os2| | |]; try discriminate.
  injection H as <-. exists os1, os2. split; reflexivity.
Qed.
Print Assumptions C106_exchange.

(** ** The conditions matter, and an example *)

Definition pt_options : list option_description := [o_output; o_number; o_log].
Definition pt_top : str := $"output = a" ++ [c_nl] ++ $"# end" ++ [c_nl].
Definition pt_log : str := $"[log]" ++ [c_nl] ++ $"file = f" ++ [c_nl].
Definition pt_rest : str := $"number = 1".

(** C106. A section of the first part stays open: the parts may be fine and the whole not, *)
Theorem C106_open_refuted : exists ds a b os1 os2 e,
  complete a /\ config ds false a = Ok os1 /\ config ds false b = Ok os2 /\ config ds false (a ++ b) = Throw e.
Proof.
  exists [o_output; o_number; mk_od [] [$"log.file"] [] tvalue], pt_log, pt_rest. do 3 eexists.
  split; [right; exists ($"[log]" ++ [c_nl] ++ $"file = f"); reflexivity|]. repeat split; reflexivity.
Qed.
Print Assumptions C106_open_refuted.

(** C106. or the other way round: a part of a file, from the beginning of a line, need not be a file; *)
Theorem C106_tail_refuted : exists ds a b os e,
  complete a /\ config ds false (a ++ b) = Ok os /\ config ds false b = Throw e.
Proof.
  exists pt_options, pt_log, ($"file = g"). do 2 eexists.
  split; [right; exists ($"[log]" ++ [c_nl] ++ $"file = f"); reflexivity|]. split; reflexivity.
Qed.
Print Assumptions C106_tail_refuted.

(** C106. and without the newline at the end of the first part its last line swallows the first line of the second. *)
Theorem C106_incomplete_refuted : exists ds a b os1 os2 os,
  sectionless a /\ config ds false a = Ok os1 /\ config ds false b = Ok os2 /\ config ds false (a ++ b) = Ok os /\ os <> os1 ++ os2.
Proof.
  exists pt_options, $"output = a", pt_rest. do 3 eexists. split; [|repeat split; [reflexivity..|discriminate]].
  intros ls Hls. rewrite <- (lines_of_getline _ _ Hls). constructor; [|constructor]. intros s Hs.
  assert (D : line_is $"output = a" (Assign $"output" $"a")) by (clear; apply (li_assign [] $"output" $" " $" " $"a" [] []); PropConfig.solve_line).
  discriminate (line_fun _ _ _ D Hs).
Qed.
Print Assumptions C106_incomplete_refuted.

Lemma pt_lines_log : lines_of pt_log [$"[log]"; $"file = f"].
Proof. exact (lines_of_total pt_log). Qed.
Lemma pt_section : line_is $"[log]" (Section_ $"log").
Proof. apply (li_section [] $"log" [] []); PropConfig.solve_line. Qed.

Example C106_ex :
  complete pt_top /\ sectionless pt_top /\ complete pt_log /\ begins_section pt_log /\ last_section pt_log $"[log]"
  /\ config pt_options false (pt_top ++ pt_log) = Ok [config_option $"output" $"a" false; config_option $"log.file" $"f" false]
  /\ config pt_options false (pt_log ++ $"level=3") = Ok [config_option $"log.file" $"f" false; config_option $"log.level" $"3" false]
  /\ fails (config pt_options false ($"bad" ++ [c_nl])).
Proof.
  assert (A : line_is $"output = a" (Assign $"output" $"a")) by (apply (li_assign [] $"output" $" " $" " $"a" [] []); PropConfig.solve_line).
  assert (N : line_is $"# end" Nothing) by (apply (li_nothing [] $"# end"); [constructor|right; eexists; reflexivity]).
  assert (F : line_is $"file = f" (Assign $"file" $"f")) by (apply (li_assign [] $"file" $" " $" " $"f" [] []); PropConfig.solve_line).
  split; [right; exists ($"output = a" ++ [c_nl] ++ $"# end"); reflexivity|].
  split.
  { intros ls Hls. rewrite <- (lines_of_getline _ _ Hls). constructor; [|constructor; [|constructor]]; intros s Hs.
    - discriminate (line_fun _ _ _ A Hs).
    - discriminate (line_fun _ _ _ N Hs). }
  split; [right; exists ($"[log]" ++ [c_nl] ++ $"file = f"); reflexivity|].
  split; [exists [], [$"[log]"; $"file = f"]; split; [exact pt_lines_log|]; split; [constructor|right; exists $"[log]", [$"file = f"], $"log"; split; [reflexivity|exact pt_section]]|].
  split; [exists [], [$"file = f"], $"log"; split; [exact pt_lines_log|]; split; [exact pt_section|constructor; [|constructor]; intros s Hs; discriminate (line_fun _ _ _ F Hs)]|].
  split; [reflexivity|]. split; [reflexivity|]. discriminate.
Qed.
