(** Facts about streams and iterators. *)

From Coq Require Import List Ascii NArith ZArith Bool Arith Lia.
From Verif Require Import Base Errors Spec BaseFacts Values OptDesc Positional Cmdline Parsers ConfigFile Convert Wide
  SpecConfig ConfigFacts Streams SpecStreams.
Import ListNotations.

Section Stream.
Context {A : Type}.
Variable is_newline : A -> bool.
Variable conv : list A -> outcome str.
Variables (al pr : sset) (allow : bool).

Notation std_getline := (std_getline is_newline).
Notation it_get := (it_get is_newline conv).
Notation it_copy := (it_copy is_newline conv).
Notation cf_line := (cf_line al pr allow).

Definition line_of (prefix : str) (l : list A) : outcome line_result := let* line := conv l in cf_line prefix line.

Definition line_option (name value : str) (registered : bool) : popt := mk_popt name (-1) [value] [name; value] (negb registered) false.

(** Reading a stream line by line *)
Fixpoint srun (fuel : nat) (prefix : str) (s : stream A) : stream A * outcome (list popt) :=
  match fuel with
  | O => (s, NoFuel)
  | S fuel' =>
      match std_getline s with
      | (None, s') => (s', Ok [])
      | (Some l, s') =>
          match line_of prefix l with
          | Ok (Skip p) => srun fuel' p s'
          | Ok (Found n v b) => match srun fuel' prefix s' with (s'', Ok os) => (s'', Ok (line_option n v b :: os)) | r => r end
          | Throw e => (s', Throw e)
          | Undef u => (s', Undef u)
          | NoFuel => (s', NoFuel)
          end
      end
  end.

(** How many lines can still be read, at most *)
Definition measure (s : stream A) : nat := if st_good s then S (length (st_rest s)) else 0.

Lemma break_shorter t l r : break_line is_newline t = Some (l, r) -> length r < length t.
Proof.
  revert l. induction t as [|x t IH]; intros l H; cbn in H; [discriminate|].
  destruct (is_newline x); [injection H as <- <-; cbn; lia|].
  destruct (break_line is_newline t) as [[l' r']|]; [|discriminate]. injection H as <- <-. specialize (IH _ eq_refl). cbn. lia.
Qed.

Lemma getline_measure s l s' : std_getline s = (Some l, s') -> measure s' < measure s /\ length (st_rest s') <= length (st_rest s).
Proof.
  unfold Streams.std_getline, measure. destruct (st_good s) eqn:Eg; cbn [negb]; [|discriminate].
  destruct (break_line is_newline (st_rest s)) as [[l' r]|] eqn:E.
  - apply break_shorter in E. intros H. injection H as _ <-. cbn. lia.
  - destruct (st_broken s); [discriminate|]. destruct (st_rest s); [discriminate|]. intros H. injection H as _ <-. cbn. lia.
Qed.

Lemma measure_le s : measure s <= S (length (st_rest s)).
Proof. unfold measure. destruct (st_good s); lia. Qed.

(** More fuel changes nothing. *)
Lemma srun_enough f : forall s p f', measure s < f -> measure s < f' -> srun f p s = srun f' p s.
Proof.
  induction f as [|f IH]; intros s p f' H1 H2; [lia|]. destruct f' as [|f']; [lia|]. cbn [srun].
  destruct (std_getline s) as [[l|] s'] eqn:E; auto. apply getline_measure in E. destruct E as [E _].
  destruct (line_of p l) as [[p'|n v b]|e|u|]; auto; [apply IH; lia|].
  rewrite (IH s' p f') by lia. reflexivity.
Qed.

Definition after {X} (r : stream A * outcome X) (k : X -> stream A -> stream A * outcome (list popt)) : stream A * outcome (list popt) :=
  match r with
  | (s, Ok x) => k x s
  | (s, Throw e) => (s, Throw e)
  | (s, Undef u) => (s, Undef u)
  | (s, NoFuel) => (s, NoFuel)
  end.

(** The iterator and the copy loop read line by line. *)
Lemma loop_srun n : forall f1 f2 it s, measure s <= n -> measure s < f1 -> measure s < f2 -> it_at_eof it = false -> po_pos (it_value it) = (-1)%Z -> po_ci (it_value it) = false ->
  after (it_get f1 al pr allow it s) (it_copy (S f2) al pr allow) = srun f1 (it_prefix it) s.
Proof.
  induction n as [n IHn] using lt_wf_ind. intros f1. induction f1 as [|f1 IH]; intros f2 it s Hn H1 H2 He Hp Hc; [lia|].
  cbn [Streams.it_get srun]. destruct (std_getline s) as [[l|] s'] eqn:E.
  2:{ cbn [after Streams.it_copy it_equal it_end it_at_eof andb]. reflexivity. }
  pose proof (getline_measure _ _ _ E) as [Hm Hlen]. fold (line_of (it_prefix it) l).
  destruct (line_of (it_prefix it) l) as [[p|nm v b]|e|u|]; cbn [after]; auto.
  - rewrite (IH f2); cbn [it_prefix it_at_eof it_value]; auto; lia.
  - cbn [Streams.it_copy it_equal it_at_eof]. rewrite He. cbn [andb].
    destruct f2 as [|f2]; [lia|].
    pose proof (IHn (measure s') ltac:(lia) (S (S (length (st_rest s')))) f2 (mk_it false (line_option nm v b) (it_prefix it)) s' (le_n _)
                  ltac:(pose proof (measure_le s'); lia) ltac:(lia) eq_refl eq_refl eq_refl) as HI.
    cbn [it_prefix] in HI. rewrite (srun_enough f1 s' (it_prefix it) (S (S (length (st_rest s'))))) by (pose proof (measure_le s'); lia).
    rewrite <- HI. clear HI. unfold assigned. rewrite Hp, Hc. fold (line_option nm v b).
    match goal with |- context [Streams.it_get is_newline conv ?f al pr allow ?i s'] =>
      destruct (Streams.it_get is_newline conv f al pr allow i s') as [s1 [it1|e|u|]] end; cbn [after it_value]; auto.
Qed.

(** ** The lines of a stream *)

(** The lines that can be read from a text *)
Fixpoint glines (fuel : nat) (t : list A) : list (list A) :=
  match fuel with
  | O => []
  | S fuel' =>
      match break_line is_newline t with
      | Some (l, r) => l :: glines fuel' r
      | None => match t with [] => [] | _ => [t] end
      end
  end.

(** only the whole lines *)
Fixpoint wlines (fuel : nat) (t : list A) : list (list A) :=
  match fuel with
  | O => []
  | S fuel' => match break_line is_newline t with Some (l, r) => l :: wlines fuel' r | None => [] end
  end.

Definition slines (s : stream A) : list (list A) :=
  if st_good s then (if st_broken s then wlines (S (length (st_rest s))) (st_rest s) else glines (S (length (st_rest s))) (st_rest s))
  else [].

Lemma glines_enough f : forall t f', length t < f -> length t < f' -> glines f t = glines f' t.
Proof.
  induction f as [|f IH]; intros t f' H1 H2; [lia|]. destruct f' as [|f']; [lia|]. cbn [glines].
  destruct (break_line is_newline t) as [[l r]|] eqn:E; auto. apply break_shorter in E. f_equal. apply IH; lia.
Qed.

Lemma wlines_enough f : forall t f', length t < f -> length t < f' -> wlines f t = wlines f' t.
Proof.
  induction f as [|f IH]; intros t f' H1 H2; [lia|]. destruct f' as [|f']; [lia|]. cbn [wlines].
  destruct (break_line is_newline t) as [[l r]|] eqn:E; auto. apply break_shorter in E. f_equal. apply IH; lia.
Qed.

Lemma getline_lines s : match std_getline s with
  | (Some l, s') => slines s = l :: slines s' /\ st_broken s' = st_broken s /\ st_bad s' = false /\ st_bad s = false
  | (None, s') => slines s = [] /\ slines s' = [] /\ st_good s' = false
                  /\ st_bad s' = (st_bad s || (st_good s && st_broken s))
  end.
Proof.
  unfold Streams.std_getline, slines. destruct (st_good s) eqn:Eg; cbn [negb].
  2:{ cbn. unfold st_good in *. cbn. rewrite !andb_false_r. cbn. rewrite orb_false_r. auto. }
  assert (Hb : st_bad s = false).
  { unfold st_good in Eg. destruct (st_bad s); auto. rewrite andb_false_r in Eg. discriminate. }
  destruct (break_line is_newline (st_rest s)) as [[l r]|] eqn:E.
  - pose proof (break_shorter _ _ _ E) as Hs.
    change (st_good (mk_stream r (st_broken s) false false false)) with true.
    cbn [st_broken st_rest st_bad]. split; [|auto].
    assert (Ew : wlines (S (length (st_rest s))) (st_rest s) = l :: wlines (length (st_rest s)) r) by (cbn [wlines]; now rewrite E).
    assert (El : glines (S (length (st_rest s))) (st_rest s) = l :: glines (length (st_rest s)) r) by (cbn [glines]; now rewrite E).
    destruct (st_broken s); [rewrite Ew|rewrite El]; f_equal; [apply wlines_enough|apply glines_enough]; lia.
  - destruct (st_broken s) eqn:Eb.
    + cbn [st_broken wlines]. rewrite E. rewrite Hb. unfold st_good. cbn. rewrite !andb_false_r. auto.
    + destruct (st_rest s) as [|x t] eqn:Et.
      * rewrite Hb. cbn. auto.
      * cbn [st_broken st_bad glines]. rewrite E. cbn. auto.
Qed.

(** What a list of lines says *)
Fixpoint lrun (prefix : str) (ls : list (list A)) : outcome (list popt) :=
  match ls with
  | [] => Ok []
  | l :: ls' =>
      match line_of prefix l with
      | Ok (Skip p) => lrun p ls'
      | Ok (Found n v b) => let* os := lrun prefix ls' in Ok (line_option n v b :: os)
      | Throw e => Throw e
      | Undef u => Undef u
      | NoFuel => NoFuel
      end
  end.

Lemma srun_lrun f : forall s p, measure s < f -> snd (srun f p s) = lrun p (slines s).
Proof.
  induction f as [|f IH]; intros s p H; [lia|]. cbn [srun]. pose proof (getline_lines s) as Hg.
  destruct (std_getline s) as [[l|] s'] eqn:E.
  - apply getline_measure in E. destruct E as [E _]. destruct Hg as [-> _]. cbn [lrun].
    destruct (line_of p l) as [[p'|n v b]|e|u|]; auto; [apply IH; lia|].
    rewrite <- (IH s' p) by lia. now destruct (srun f p s') as [s2 [os|e|u|]].
  - now destruct Hg as [-> _].
Qed.

(** After a successful parse *)
Lemma srun_end f : forall s p s' os, srun f p s = (s', Ok os) ->
  slines s' = [] /\ st_good s' = false /\ st_bad s' = (st_bad s || (st_good s && st_broken s)).
Proof.
  induction f as [|f IH]; intros s p s' os H; [discriminate|]. cbn [srun] in H. pose proof (getline_lines s) as Hg.
  destruct (std_getline s) as [[l|] s1] eqn:E.
  - assert (Hrec : exists p' os', srun f p' s1 = (s', Ok os')).
    { destruct (line_of p l) as [[p'|nm v b]|e|u|]; try discriminate; eauto.
      destruct (srun f p s1) as [s2 [os'|e|u|]] eqn:Er; try discriminate. injection H as <- _. eauto. }
    destruct Hrec as (p' & os' & Hr). destruct (IH _ _ _ _ Hr) as (H1 & H2 & H3). split; auto. split; auto.
    destruct Hg as (_ & Hb & Hx & Hy). rewrite H3, Hb, Hx, Hy. cbn [orb].
    assert (Gs : st_good s = true).
    { unfold Streams.std_getline in E. destruct (st_good s); auto. discriminate. }
    rewrite Gs. destruct (st_broken s) eqn:Eb; [|now rewrite !andb_false_r].
    unfold Streams.std_getline in E. rewrite Gs, Eb in E. cbn [negb] in E.
    destruct (break_line is_newline (st_rest s)) as [[l' r]|]; [|discriminate]. now injection E as _ <-.
  - injection H as <- <-. destruct Hg as (_ & H1 & H2 & H3). auto.
Qed.

(** [s'] is [s] after these lines have been read. *)
Inductive took : stream A -> list (list A) -> stream A -> Prop :=
| tk_nil s : took s [] s
| tk_cons s l s1 ls s2 : std_getline s = (Some l, s1) -> took s1 ls s2 -> took s (l :: ls) s2.

(** Where a parse stops when it does not succeed *)
Lemma srun_stop f : forall s p s' r, measure s < f -> srun f p s = (s', r) -> (forall os, r <> Ok os) ->
  exists ls l, took s (ls ++ [l]) s' /\ (exists os, lrun p ls = Ok os) /\ lrun p (ls ++ [l]) = r.
Proof.
  induction f as [|f IH]; intros s p s' r Hf H Hr; [lia|]. cbn [srun] in H.
  destruct (std_getline s) as [[l|] s1] eqn:E; [|injection H as <- <-; exfalso; eapply Hr; reflexivity].
  pose proof (getline_measure _ _ _ E) as [Hm _].
  destruct (line_of p l) as [[p'|nm v b]|e|u|] eqn:El.
  - destruct (IH s1 p' s' r ltac:(lia) H Hr) as (ls & l' & H1 & (os & H2) & H3). exists (l :: ls), l'. cbn [app lrun].
    rewrite El. split; [econstructor; eauto|]. eauto.
  - destruct (srun f p s1) as [s2 r2] eqn:Er.
    assert (Hr2 : forall os, r2 <> Ok os) by (intros os ->; injection H as _ <-; eapply Hr; reflexivity).
    assert (E2 : s2 = s' /\ r2 = r) by (destruct r2; [exfalso; eapply Hr2; reflexivity|..]; injection H as <- <-; auto).
    destruct E2 as [-> ->].
    destruct (IH s1 p s' r ltac:(lia) Er Hr) as (ls & l' & H1 & (os & H2) & H3). exists (l :: ls), l'. cbn [app lrun].
    rewrite El. split; [econstructor; eauto|]. rewrite H2, H3. cbn [bind]. split; eauto.
    destruct r; auto. exfalso. eapply Hr. reflexivity.
  - injection H as <- <-. exists [], l. cbn [app lrun]. rewrite El. split; [econstructor; [exact E|constructor]|eauto].
  - injection H as <- <-. exists [], l. cbn [app lrun]. rewrite El. split; [econstructor; [exact E|constructor]|eauto].
  - injection H as <- <-. exists [], l. cbn [app lrun]. rewrite El. split; [econstructor; [exact E|constructor]|eauto].
Qed.

End Stream.

(** ** Lines and texts *)

Section Text.
Context {A : Type}.
Variable is_newline : A -> bool.
Variable newline : A.
Hypothesis newline_spec : forall x, is_newline x = true <-> x = newline.

Notation break_line := (break_line is_newline).

Lemma newline_false x : is_newline x = false <-> x <> newline.
Proof. rewrite <- newline_spec. destruct (is_newline x); split; congruence. Qed.

Lemma break_Some t l r : break_line t = Some (l, r) <-> t = l ++ newline :: r /\ ~ In newline l.
Proof.
  revert l r. induction t as [|x t IH]; intros l r; cbn [Streams.break_line].
  - split; [discriminate|]. intros [H _]. now destruct l.
  - destruct (is_newline x) eqn:E.
    + apply newline_spec in E. subst x. split.
      * intros H. injection H as <- <-. cbn. auto.
      * intros [H Hn]. destruct l as [|y l]; [injection H as <-; auto|]. injection H as <- _. exfalso. apply Hn. now left.
    + apply newline_false in E. destruct (break_line t) as [[l' r']|] eqn:Eb.
      * destruct (proj1 (IH l' r') eq_refl) as [H1 H2]. rewrite H1. split.
        -- intros H. injection H as <- <-. split; auto. intros [H|H]; [now apply E|contradiction].
        -- intros [H Hn]. destruct l as [|y l]; [injection H as -> _; congruence|]. injection H as <- H.
           assert (Hx : Some (l', r') = Some (l, r)) by (apply IH; split; [congruence|intros Hi; apply Hn; now right]).
           injection Hx as <- <-. reflexivity.
      * split; [discriminate|]. intros [H Hn]. destruct l as [|y l]; [injection H as -> _; congruence|]. injection H as <- H.
        assert (Hx : None = Some (l, r)) by (apply IH; split; [auto|intros Hi; apply Hn; now right]). discriminate.
Qed.

Lemma break_None t : break_line t = None <-> ~ In newline t.
Proof.
  induction t as [|x t IH]; cbn [Streams.break_line]; [cbn; tauto|]. destruct (is_newline x) eqn:E.
  - apply newline_spec in E. subst x. split; [discriminate|]. intros H. exfalso. apply H. now left.
  - apply newline_false in E. destruct (break_line t) as [[l r]|] eqn:Eb.
    + split; [discriminate|]. intros H. assert (Hx : Some (l, r) = None) by (apply IH; intros Hi; apply H; now right). discriminate.
    + split; auto. intros _ [H|H]; [auto|]. now apply IH.
Qed.

Lemma whole_rest l r : whole_lines newline (l ++ newline :: r) -> whole_lines newline r.
Proof.
  intros [H|[t H]]; [now destruct l|]. destruct r as [|x r] using rev_ind; [now left|]. right. exists r.
  change (l ++ newline :: r ++ [x]) with (l ++ (newline :: r) ++ [x]) in H. rewrite app_assoc in H.
  apply app_inj_tail in H. now destruct H as [_ ->].
Qed.

Lemma whole_broken f : forall t part f', length t < f' -> length (t ++ part) < f -> whole_lines newline t -> ~ In newline part ->
  wlines is_newline f (t ++ part) = glines is_newline f' t.
Proof.
  induction f as [|f IH]; intros t part f' Hf' Hf Ht Hp; [lia|]. destruct f' as [|f']; [lia|]. cbn [wlines glines].
  destruct (break_line t) as [[l r]|] eqn:E.
  - apply break_Some in E. destruct E as [-> Hn].
    assert (E : break_line ((l ++ newline :: r) ++ part) = Some (l, r ++ part)).
    { apply break_Some. rewrite <- app_assoc. auto. }
    rewrite E. f_equal. rewrite !app_length in *. cbn [length] in *. apply IH; [lia|rewrite app_length; lia| |auto].
    eapply whole_rest; eauto.
  - apply break_None in E. assert (Et : t = []).
    { destruct Ht as [->|[t' ->]]; auto. exfalso. apply E. apply in_or_app. right. now left. }
    subst t. cbn [app]. apply break_None in Hp. now rewrite Hp.
Qed.

Lemma good_usable (s : stream A) : st_good s = true <-> usable s.
Proof. unfold st_good, usable. destruct (st_eof s), (st_fail s), (st_bad s); cbn; intuition congruence. Qed.

Lemma delivers_lines s t : delivers newline s t -> slines is_newline s = glines is_newline (S (length t)) t.
Proof.
  intros H. unfold slines. inversion H as [Hu Hb E|t' part Hu Hb Hr Ht Hp E|Hu E]; subst.
  - apply good_usable in Hu. now rewrite Hu, Hb.
  - apply good_usable in Hu. rewrite Hu, Hb, Hr. apply whole_broken; auto.
  - destruct (st_good s) eqn:Eg; auto. apply good_usable in Eg. contradiction.
Qed.

Lemma last_newline t : exists a b, t = a ++ b /\ whole_lines newline a /\ ~ In newline b.
Proof.
  induction t as [|x t (a & b & -> & Ha & Hb)] using rev_ind; [exists [], []; repeat split; [now left|easy]|].
  destruct (is_newline x) eqn:E.
  - apply newline_spec in E. subst x. exists ((a ++ b) ++ [newline]), []. rewrite app_nil_r. repeat split; [right; eauto|easy].
  - apply newline_false in E. exists a, (b ++ [x]). rewrite app_assoc. repeat split; auto.
    intros H. apply in_app_or in H. destruct H as [H|[H|[]]]; [contradiction|now apply E].
Qed.

Lemma delivers_total s : exists t, delivers newline s t.
Proof.
  destruct (st_good s) eqn:Eg.
  - apply good_usable in Eg. destruct (st_broken s) eqn:Eb.
    + destruct (last_newline (st_rest s)) as (a & b & Hr & Ha & Hb). exists a. eapply dv_broken; eauto.
    + exists (st_rest s). now apply dv_all.
  - exists []. apply dv_none. intros H. apply good_usable in H. congruence.
Qed.

Lemma whole_split a b c d : a ++ b = c ++ d -> whole_lines newline a -> whole_lines newline c -> ~ In newline b -> ~ In newline d -> a = c.
Proof.
  intros H Ha Hc Hb Hd. assert (Hw : forall x y z w, x ++ y = z ++ w -> length x < length z -> whole_lines newline z -> ~ In newline y -> False).
  { clear. intros x y z w H Hl Hz Hy. destruct Hz as [->|[z' ->]]; [cbn in Hl; lia|].
    rewrite app_length in Hl. cbn in Hl. rewrite <- app_assoc in H. cbn in H.
    assert (Hx : exists m, z' = x ++ m /\ y = m ++ newline :: w).
    { revert z' H Hl. induction x as [|k x IH]; intros z' H Hl; cbn in *; [exists z'; auto|].
      destruct z' as [|k' z']; cbn in *; [lia|]. injection H as -> H. destruct (IH z' H) as (m & -> & ->); [lia|]. exists m. auto. }
    destruct Hx as (m & _ & ->). apply Hy. apply in_or_app. right. now left. }
  destruct (lt_eq_lt_dec (length a) (length c)) as [[Hl|Hl]|Hl].
  - exfalso. eapply Hw; eauto.
  - assert (E : firstn (length a) (a ++ b) = firstn (length c) (c ++ d)) by congruence.
    rewrite !firstn_app, !Nat.sub_diag, !firstn_all in E. cbn in E. now rewrite !app_nil_r in E.
  - exfalso. eapply Hw; [symmetry; exact H| | |]; eauto.
Qed.

Lemma delivers_fun s t t' : delivers newline s t -> delivers newline s t' -> t = t'.
Proof.
  intros H H'. inversion H as [Hu Hb|t1 p1 Hu Hb Hr Ht Hp|Hu]; inversion H' as [Hu' Hb'|t2 p2 Hu' Hb' Hr' Ht' Hp'|Hu'];
    subst; auto; try congruence; try contradiction.
  rewrite Hr in Hr'. eapply whole_split; eauto.
Qed.

(** The text of the lines that have been read *)
Lemma took_text s ls s' : took is_newline s ls s' -> ls <> [] ->
  exists ls0 l line, ls = ls0 ++ [l] /\ ~ In newline l
  /\ Forall (fun x => ~ In newline x) ls0
  /\ st_rest s = List.concat (map (fun x => x ++ [newline]) ls0) ++ line ++ st_rest s'
  /\ (line = l ++ [newline] \/ line = l /\ l <> [] /\ st_rest s' = []).
Proof.
  induction 1 as [s|s l s1 ls s2 Hg Ht IH]; intros Hne; [congruence|].
  unfold std_getline in Hg. destruct (st_good s); cbn [negb] in Hg; [|discriminate].
  destruct (break_line (st_rest s)) as [[l' r]|] eqn:E.
  - injection Hg as <- <-. apply break_Some in E. destruct E as [Er Hn]. destruct ls as [|l2 ls].
    + inversion Ht; subst. exists [], l', (l' ++ [newline]). cbn [map List.concat app st_rest]. rewrite Er, <- app_assoc. repeat split; auto.
    + destruct IH as (ls0 & l3 & line & H1 & H2 & H3 & H4 & H5); [discriminate|]. exists (l' :: ls0), l3, line.
      rewrite H1. cbn [st_rest] in H4. split; auto. split; auto. split; [constructor; auto|]. split; [|auto].
      rewrite Er, H4. cbn [map List.concat]. rewrite <- !app_assoc. reflexivity.
  - apply break_None in E. destruct (st_broken s); [discriminate|].
    destruct (st_rest s) as [|x t] eqn:Et; [discriminate|]. injection Hg as <- <-.
    assert (Els : ls = [] /\ s2 = mk_stream [] false true false false).
    { inversion Ht as [|? l3 s3 ls3 ? Hg3]; subst; auto. unfold std_getline in Hg3. cbn in Hg3. discriminate. }
    destruct Els as [-> ->]. exists [], (x :: t), (x :: t). cbn [map List.concat app st_rest]. rewrite app_nil_r. repeat split; auto.
    right. repeat split; auto. discriminate.
Qed.

(** [getline] in a loop (see [getline_aux]) *)
Fixpoint gaux (cur s : list A) : list (list A) :=
  match s with
  | [] => match cur with [] => [] | _ => [rev cur] end
  | x :: s' => if is_newline x then rev cur :: gaux [] s' else gaux (x :: cur) s'
  end.

Lemma gaux_break s : forall cur,
  gaux cur s = match break_line s with
               | Some (l, r) => (rev cur ++ l) :: gaux [] r
               | None => match rev cur ++ s with [] => [] | t => [t] end
               end.
Proof.
  induction s as [|x s IH]; intros cur; cbn [gaux Streams.break_line].
  - rewrite app_nil_r. destruct cur as [|c cur]; auto. destruct (rev (c :: cur)) eqn:E; auto.
    apply (f_equal (@length A)) in E. rewrite rev_length in E. discriminate.
  - destruct (is_newline x); [now rewrite app_nil_r|]. rewrite IH. destruct (break_line s) as [[l r]|]; cbn [rev]; now rewrite <- app_assoc.
Qed.

Lemma gaux_glines f : forall s, length s < f -> gaux [] s = glines is_newline f s.
Proof.
  induction f as [|f IH]; intros s H; [lia|]. rewrite gaux_break. cbn [glines rev app].
  destruct (break_line s) as [[l r]|] eqn:E; [|now destruct s]. apply break_shorter in E. f_equal. apply IH. lia.
Qed.

End Text.

(** ** The iterator and the functions on lists of lines *)

Section Lists.
Context {A : Type}.
Variable conv : list A -> outcome str.
Variables (al pr : sset) (allow : bool).

Lemma copy_step f p l ls : cf_copy (S f) al pr allow (mk_cf p (l :: ls))
  = match cf_line al pr allow p l with
    | Ok (Skip p') => cf_copy (S f) al pr allow (mk_cf p' ls)
    | Ok (Found n v b) => let* os := cf_copy f al pr allow (mk_cf p ls) in Ok (line_option n v b :: os)
    | Throw e => Throw e
    | Undef u => Undef u
    | NoFuel => NoFuel
    end.
Proof.
  cbn [cf_copy cf_prefix cf_lines cf_get]. unfold cf_line. cbv zeta. destruct (is_empty (strip_line l)); auto.
  destruct (is_section (strip_line l)).
  { destruct (section_prefix (strip_line l)); auto. }
  destruct (find_char c_eq (strip_line l)); auto. destruct (negb _ && negb _); auto.
Qed.

Lemma copy_lrun ls : forall ls' f p, mapM conv ls = Ok ls' -> length ls < f ->
  cf_copy f al pr allow (mk_cf p ls') = lrun conv al pr allow p ls.
Proof.
  induction ls as [|l ls IH]; intros ls' f p Hm Hf; (destruct f as [|f]; [lia|]).
  - injection Hm as <-. reflexivity.
  - cbn [mapM] in Hm. apply bind_Ok in Hm. destruct Hm as (l' & Hl & Hm). apply bind_Ok in Hm. destruct Hm as (ls2 & Hls & Hm).
    injection Hm as <-. rewrite copy_step. cbn [lrun]. unfold line_of. rewrite Hl. cbn [bind]. cbn [length] in Hf.
    destruct (cf_line al pr allow p l') as [[p'|n v b]|e|u|]; auto; [apply IH; auto; lia|].
    rewrite (IH ls2 f p Hls) by lia. reflexivity.
Qed.

End Lists.

Lemma mapM_Ok {X} (l : list X) : mapM (fun x => Ok x) l = Ok l.
Proof. induction l as [|x l IH]; cbn; auto. now rewrite IH. Qed.

(** The whole function, in terms of lines *)
Lemma options_srun {A} (nl : A -> bool) conv s ds allow :
  parse_config_options nl conv s ds allow
  = match (let* al := cf_allowed ds [] in let* pr := cf_add_options [] al in Ok (al, pr)) with
    | Ok (al, pr) =>
        let r := srun nl conv al pr allow (S (S (length (st_rest s)))) [] s in
        (fst r, let* os := snd r in Ok (mk_parsed os (Some ds) 0))
    | Throw e => (s, Throw e)
    | Undef u => (s, Undef u)
    | NoFuel => (s, NoFuel)
    end.
Proof.
  unfold parse_config_options. destruct (let* al := cf_allowed ds [] in _) as [[al pr]|e|u|]; auto.
  pose proof (loop_srun nl conv al pr allow (measure s) (S (S (length (st_rest s)))) (S (S (length (st_rest s))))
      (mk_it false popt_new []) s (le_n _) ltac:(pose proof (measure_le s); lia) ltac:(pose proof (measure_le s); lia) eq_refl eq_refl eq_refl) as H.
  cbn [it_prefix] in H. rewrite <- H. cbv zeta. clear H.
  destruct (it_get nl conv (S (S (length (st_rest s)))) al pr allow (mk_it false popt_new []) s) as [s1 [it|e|u|]]; auto.
  cbn [after]. destruct (it_copy nl conv (S (S (S (length (st_rest s))))) al pr allow it s1) as [s2 [os|e|u|]]; auto.
Qed.

(** ** Narrow streams *)

Lemma char_newline x : char_eqb x c_nl = true <-> x = c_nl.
Proof. destruct (char_eqb_spec x c_nl); split; congruence. Qed.

Lemma getline_all_glines t : getline_all c_nl t = glines (fun x => char_eqb x c_nl) (S (length t)) t.
Proof.
  assert (H : forall s cur, getline_aux c_nl cur s = gaux (fun x => char_eqb x c_nl) cur s).
  { induction s as [|x s IH]; intros cur; cbn [getline_aux gaux]; auto. now rewrite !IH. }
  unfold getline_all. rewrite H. apply gaux_glines. lia.
Qed.

Lemma parse_lines t ds allow : parse_config_file t ds allow
  = match (let* al := cf_allowed ds [] in let* pr := cf_add_options [] al in Ok (al, pr)) with
    | Ok (al, pr) => let* os := lrun (fun l => Ok l) al pr allow [] (getline_all c_nl t) in Ok (mk_parsed os (Some ds) 0)
    | Throw e => Throw e
    | Undef u => Undef u
    | NoFuel => NoFuel
    end.
Proof.
  unfold parse_config_file. cbv zeta. destruct (cf_allowed ds []) as [al|e|u|]; auto. cbn [bind].
  destruct (cf_add_options [] al) as [pr|e|u|]; auto. cbn [bind].
  rewrite (copy_lrun (fun l => Ok l) al pr allow (getline_all c_nl t) (getline_all c_nl t)); auto. apply mapM_Ok.
Qed.

Lemma stream_text s t ds allow :
  delivers c_nl s t -> snd (parse_config_stream s ds allow) = parse_config_file t ds allow.
Proof.
  intros H. unfold parse_config_stream. rewrite options_srun, parse_lines.
  destruct (let* al := cf_allowed ds [] in _) as [[al pr]|e|u|]; auto. cbv zeta. cbn [snd].
  rewrite srun_lrun by (pose proof (measure_le s); lia).
  rewrite (delivers_lines _ c_nl char_newline s t H). now rewrite getline_all_glines.
Qed.

Lemma options_end {A} (nl : A -> bool) conv s ds allow s' p :
  parse_config_options nl conv s ds allow = (s', Ok p) ->
  slines nl s' = [] /\ st_good s' = false /\ st_bad s' = (st_bad s || (st_good s && st_broken s)).
Proof.
  rewrite options_srun. destruct (let* al := cf_allowed ds [] in _) as [[al pr]|e|u|]; try discriminate. cbv zeta.
  destruct (srun nl conv al pr allow (S (S (length (st_rest s)))) [] s) as [s1 [os|e|u|]] eqn:E; cbn [fst snd bind]; intros H; try discriminate.
  injection H as <- _. eapply srun_end; eauto.
Qed.

(** Where the stream is after a failed parse *)
Lemma stream_stop s ds allow s' r :
  parse_config_stream s ds allow = (s', r) -> (forall p, r <> Ok p) ->
  (s' = s /\ forall t, parse_config_file t ds allow = r)
  \/ exists ls l line, Forall (fun x => ~ In c_nl x) ls /\ ~ In c_nl l
     /\ st_rest s = unlines ls ++ line ++ st_rest s'
     /\ (line = l ++ [c_nl] \/ line = l /\ l <> [] /\ st_rest s' = [])
     /\ (exists p, parse_config_file (unlines ls) ds allow = Ok p)
     /\ parse_config_file (unlines ls ++ line) ds allow = r.
Proof.
  unfold parse_config_stream. rewrite options_srun. intros H Hr.
  destruct (let* al := cf_allowed ds [] in _) as [[al pr]|e|u|] eqn:Eal; cbv zeta in H.
  2,3,4: injection H as <- <-; left; split; [reflexivity|]; intros t; rewrite parse_lines, Eal; reflexivity.
  right. destruct (srun _ _ al pr allow (S (S (length (st_rest s)))) [] s) as [s1 r1] eqn:E. cbn [fst snd] in H. injection H as <- <-.
  assert (Hr1 : forall os, r1 <> Ok os) by (intros os ->; eapply Hr; reflexivity).
  assert (Hm : measure s < S (S (length (st_rest s)))) by (pose proof (measure_le s); lia).
  destruct (srun_stop _ _ _ _ _ _ _ _ _ _ Hm E Hr1) as (ls & l & H1 & (os & H2) & H3).
  destruct (took_text _ c_nl char_newline _ _ _ H1) as (ls0 & l0 & line & E0 & Hl & Hls & Hrest & Hline); [now destruct ls|].
  apply app_inj_tail in E0. destruct E0 as [<- <-].
  assert (G1 : getline_all c_nl (unlines ls) = ls).
  { apply lines_of_getline. split; [exact Hls|now left]. }
  assert (G2 : getline_all c_nl (unlines ls ++ line) = ls ++ [l]).
  { apply lines_of_getline. split; [apply Forall_app; split; [exact Hls|constructor; auto]|].
    destruct Hline as [->|(-> & Hne & _)].
    - left. unfold unlines. rewrite map_app, concat_app. cbn [map List.concat]. now rewrite app_nil_r.
    - right. exists ls, l. auto. }
  exists ls, l, line. repeat (split; [assumption|]). rewrite !parse_lines, Eal, G1, G2. split.
  - rewrite H2. cbn [bind]. eauto.
  - rewrite H3. reflexivity.
Qed.

(** ** Wide streams *)

Lemma wide_newline x : N.eqb x (N_of_ascii c_nl) = true <-> x = N_of_ascii c_nl.
Proof. apply N.eqb_eq. Qed.

Lemma wgetline_all_glines t : wgetline_all t = glines (fun x => N.eqb x (N_of_ascii c_nl)) (S (length t)) t.
Proof.
  assert (H : forall s cur, wgetline_aux cur s = gaux (fun x => N.eqb x (N_of_ascii c_nl)) cur s).
  { induction s as [|x s IH]; intros cur; cbn [wgetline_aux gaux]; auto; now rewrite !IH. }
  unfold wgetline_all. rewrite H. apply gaux_glines. lia.
Qed.

Lemma wide_lrun s t ds allow : delivers (N_of_ascii c_nl) s t ->
  snd (parse_config_options (fun x => N.eqb x (N_of_ascii c_nl)) to_utf8 s ds allow)
  = match (let* al := cf_allowed ds [] in let* pr := cf_add_options [] al in Ok (al, pr)) with
    | Ok (al, pr) => let* os := lrun to_utf8 al pr allow [] (wgetline_all t) in Ok (mk_parsed os (Some ds) 0)
    | Throw e => Throw e
    | Undef u => Undef u
    | NoFuel => NoFuel
    end.
Proof.
  intros H. rewrite options_srun.
  destruct (let* al := cf_allowed ds [] in _) as [[al pr]|e|u|]; auto. cbv zeta. cbn [snd].
  rewrite srun_lrun by (pose proof (measure_le s); lia).
  rewrite (delivers_lines _ (N_of_ascii c_nl) wide_newline s t H). now rewrite wgetline_all_glines.
Qed.

Lemma wstream_text s t ls ds allow :
  delivers (N_of_ascii c_nl) s t -> mapM to_utf8 (wgetline_all t) = Ok ls ->
  snd (wparse_config_stream s ds allow) = wparse_config_file t ds allow.
Proof.
  intros H Hm. unfold wparse_config_stream. cbv zeta. cbn [snd]. rewrite (wide_lrun s t ds allow H).
  unfold wparse_config_file. rewrite Hm. cbn [bind]. destruct (cf_allowed ds []) as [al|e|u|]; auto. cbn [bind].
  destruct (cf_add_options [] al) as [pr|e|u|]; auto. cbn [bind].
  rewrite (copy_lrun to_utf8 al pr allow (wgetline_all t) ls); auto.
  - now destruct (lrun to_utf8 al pr allow [] (wgetline_all t)).
  - assert (Hlen : length ls = length (wgetline_all t)); [|rewrite Hlen; apply le_n].
    clear -Hm. revert ls Hm. induction (wgetline_all t) as [|x l IH]; intros ls Hm; cbn [mapM] in Hm; [injection Hm as <-; auto|].
    apply bind_Ok in Hm. destruct Hm as (y & _ & Hm). apply bind_Ok in Hm. destruct Hm as (ys & Hys & Hm). injection Hm as <-. cbn. f_equal. auto.
Qed.

(** ** The environment *)

Lemma env_loop_list mapper rest : forall l pre fuel, length l < fuel ->
  env_loop fuel (Some (map Some pre ++ map Some l ++ None :: rest)) (length pre) mapper = parse_environment_loop l mapper.
Proof.
  induction l as [|s l IH]; intros pre fuel Hf; (destruct fuel as [|fuel]; [cbn in Hf; lia|]); cbn [env_loop env_get parse_environment_loop].
  - rewrite nth_error_app2, map_length, Nat.sub_diag by (rewrite map_length; lia). reflexivity.
  - rewrite nth_error_app2, map_length, Nat.sub_diag by (rewrite map_length; lia). cbn [map app nth_error].
    destruct (env_split s) as [p|e|u|]; auto. cbn [bind]. destruct (mapper (fst p)); auto. cbn [bind].
    specialize (IH (pre ++ [s]) fuel). rewrite app_length, map_app in IH. cbn [length map] in IH.
    rewrite <- app_assoc in IH. cbn [app] in IH. rewrite Nat.add_1_r in IH. cbn [length] in Hf. rewrite IH by lia. reflexivity.
Qed.

Lemma env_loop_unterminated mapper r : forall l pre fuel, length l < fuel ->
  parse_environment_loop l mapper = Ok r ->
  env_loop fuel (Some (map Some pre ++ map Some l)) (length pre) mapper = Undef UB_index.
Proof.
  intros l. revert r. induction l as [|s l IH]; intros r pre fuel Hf H; (destruct fuel as [|fuel]; [cbn in Hf; lia|]); cbn [env_loop env_get].
  - cbn [map]. rewrite app_nil_r. assert (E : nth_error (map Some pre) (length pre) = None) by (apply nth_error_None; rewrite map_length; lia).
    now rewrite E.
  - rewrite nth_error_app2, map_length, Nat.sub_diag by (rewrite map_length; lia). cbn [map nth_error].
    cbn [parse_environment_loop] in H. apply bind_Ok in H. destruct H as (p & -> & H). cbn [bind].
    apply bind_Ok in H. destruct H as (n & -> & H). cbn [bind]. apply bind_Ok in H. destruct H as (rest & H & _).
    specialize (IH rest (pre ++ [s]) fuel). rewrite app_length, map_app in IH. cbn [length map] in IH.
    rewrite <- app_assoc in IH. cbn [app] in IH. rewrite Nat.add_1_r in IH. cbn [length] in Hf. rewrite IH; auto. lia.
Qed.
