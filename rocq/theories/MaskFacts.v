(** Facts about streams that throw. *)

From Coq Require Import List Ascii NArith ZArith Bool Arith Lia.
From Verif Require Import Base Errors Spec BaseFacts Values OptDesc Positional Cmdline Parsers ConfigFile Convert Wide
  SpecConfig ConfigFacts Streams SpecStreams StreamFacts Masked.
Import ListNotations.

Section Stream.
Context {A : Type}.
Variable is_newline : A -> bool.
Variable m : mask.
Variable conv : list A -> outcome str.
Variables (al pr : sset) (allow : bool).

Notation std_getline := (std_getline is_newline).
Notation getline_masked := (getline_masked is_newline m).
Notation it_get := (it_get is_newline conv).
Notation it_copy := (it_copy is_newline conv).
Notation get_masked := (get_masked is_newline m conv).
Notation copy_masked := (copy_masked is_newline m conv).
Notation hits := (@hits A m).

Definition throws {X} (r : io X) : Prop := r = Failure \/ r = Rethrown.

Lemma hits_bad s : hits s = true -> st_good s = false.
Proof.
  unfold Masked.hits, st_good. destruct (st_eof s), (st_fail s), (st_bad s); auto. rewrite !andb_false_r. discriminate.
Qed.

Lemma getline_hits s o s' : std_getline s = (o, s') ->
  if hits s' then exists x, getline_masked s = x /\ throws (fst x) else getline_masked s = (Done o, s').
Proof.
  unfold Streams.std_getline, Masked.getline_masked, set_state. destruct (negb (st_good s)).
  { intros [= <- <-]. destruct (hits _); auto. eexists. split; [reflexivity|now left]. }
  destruct (break_line is_newline (st_rest s)) as [[l r]|].
  { intros [= <- <-]. unfold Masked.hits. cbn [st_eof st_fail st_bad]. now rewrite !andb_false_r. }
  destruct (st_broken s).
  - intros [= <- <-]. destruct (on_bad m) eqn:Eb.
    + unfold Masked.hits at 1. cbn [st_bad]. rewrite Eb, orb_true_r. eexists. split; [reflexivity|now right].
    + destruct (st_rest s) eqn:Er; cbn [is_empty].
      * destruct (hits _); auto. eexists. split; [reflexivity|now left].
      * unfold Masked.hits. cbn [st_eof st_fail st_bad]. now rewrite Eb, !andb_false_r.
  - destruct (st_rest s); intros [= <- <-]; (destruct (hits _); auto; eexists; split; [reflexivity|now left]).
Qed.

Lemma getline_stuck s o s' : hits s = true -> std_getline s = (o, s') -> o = None /\ hits s' = true.
Proof.
  intros H. unfold Streams.std_getline. rewrite (hits_bad s H). cbn [negb]. intros [= <- <-]. split; auto.
  unfold Masked.hits in *. cbn [st_eof st_fail st_bad]. destruct (on_eof m && st_eof s), (on_bad m && st_bad s), (on_fail m), (st_fail s); auto.
Qed.

Lemma get_stuck fuel it s s' r : hits s = true -> it_get fuel al pr allow it s = (s', r) -> hits s' = true.
Proof.
  intros H. destruct fuel; cbn [Streams.it_get]; [now intros [= <- <-]|].
  destruct (std_getline s) as [o s1] eqn:E. destruct (getline_stuck _ _ _ H E) as [-> H1]. now intros [= <- <-].
Qed.

Lemma get_hits fuel : forall it s s' r, it_get (S fuel) al pr allow it s = (s', r) ->
  if hits s' then throws (snd (get_masked (S fuel) al pr allow it s)) else get_masked (S fuel) al pr allow it s = (s', Done r).
Proof.
  induction fuel as [|fuel IH]; intros it s s' r H.
  - cbn [Streams.it_get] in H. cbn [Masked.get_masked]. destruct (std_getline s) as [o s1] eqn:E. apply getline_hits in E.
    destruct (hits s1) eqn:Eh.
    + destruct E as ([x s2] & -> & Hx). 
      assert (s' = s1) as ->.
      { destruct o as [l|]; [|now injection H as <- _]. destruct (let* line := conv l in _) as [[p|nm v b]|e|u|]; injection H as <- _; auto. }
      rewrite Eh. destruct Hx as [Hx|Hx]; cbn [fst] in Hx; subst x; cbn [snd]; [now left|now right].
    + rewrite E. assert (s' = s1) as ->.
      { destruct o as [l|]; [|now injection H as <- _]. destruct (let* line := conv l in _) as [[p|nm v b]|e|u|]; injection H as <- _; auto. }
      rewrite Eh. destruct o as [l|]; [|now injection H as <-].
      destruct (let* line := conv l in _) as [[p|nm v b]|e|u|]; injection H as <-; auto.
  - remember (S fuel) as f eqn:Ef. cbn [Streams.it_get] in H. cbn [Masked.get_masked]. destruct (std_getline s) as [o s1] eqn:E. apply getline_hits in E.
    assert (Hm : hits s1 = true -> hits s' = true).
    { intros H1. destruct o as [l|]; [|now injection H as <- _].
      destruct (let* line := conv l in _) as [[p|nm v b]|e|u|]; try (now injection H as <- _). eapply get_stuck; eauto. }
    destruct (hits s1) eqn:Eh.
    + destruct E as ([x s2] & -> & Hx). rewrite Hm by reflexivity.
      destruct Hx as [Hx|Hx]; cbn [fst] in Hx; subst x; cbn [snd]; [now left|now right].
    + rewrite E. destruct o as [l|]; [|injection H as <- <-; now rewrite Eh].
      destruct (let* line := conv l in _) as [[p|nm v b]|e|u|]; try (injection H as <- <-; now rewrite Eh). now apply IH.
Qed.

Lemma copy_stuck fuel : forall it s s' r, hits s = true -> it_copy fuel al pr allow it s = (s', r) -> hits s' = true.
Proof.
  induction fuel as [|fuel IH]; intros it s s' r H; cbn [Streams.it_copy]; [now intros [= <- <-]|].
  destruct (it_equal it it_end); [now intros [= <- <-]|].
  destruct (it_get (S (S (length (st_rest s)))) al pr allow it s) as [s1 r1] eqn:E. apply get_stuck in E; auto.
  destruct r1 as [it1|e|u|]; try (now intros [= <- <-]).
  destruct (it_copy fuel al pr allow it1 s1) as [s2 r2] eqn:E2. apply IH in E2; auto.
  destruct r2; now intros [= <- <-].
Qed.

Lemma copy_hits fuel : forall it s s' r, hits s = false -> it_copy fuel al pr allow it s = (s', r) ->
  if hits s' then throws (snd (copy_masked fuel al pr allow it s)) else copy_masked fuel al pr allow it s = (s', Done r).
Proof.
  induction fuel as [|fuel IH]; intros it s s' r H Hc; cbn [Streams.it_copy] in Hc; cbn [Masked.copy_masked]; [injection Hc as <- <-; now rewrite H|].
  destruct (it_equal it it_end); [injection Hc as <- <-; now rewrite H|].
  destruct (it_get (S (S (length (st_rest s)))) al pr allow it s) as [s1 r1] eqn:E. pose proof (get_hits _ _ _ _ _ E) as Hg.
  assert (Hm : hits s1 = true -> hits s' = true).
  { intros H1. destruct r1 as [it1|e|u|]; try (now injection Hc as <- <-).
    destruct (it_copy fuel al pr allow it1 s1) as [s2 r2] eqn:E2. apply copy_stuck in E2; auto. destruct r2; now injection Hc as <- <-. }
  destruct (hits s1) eqn:Eh.
  - rewrite Hm by reflexivity. destruct (get_masked (S (S (length (st_rest s)))) al pr allow it s) as [sm x].
    destruct Hg as [Hg|Hg]; cbn [snd] in Hg; subst x; [now left|now right].
  - rewrite Hg. destruct r1 as [it1|e|u|]; try (injection Hc as <- <-; now rewrite Eh).
    destruct (it_copy fuel al pr allow it1 s1) as [s2 r2] eqn:E2. specialize (IH _ _ _ _ Eh E2).
    assert (Es : s' = s2) by (destruct r2; now injection Hc as <- <-). subst s2. destruct (hits s').
    + destruct (copy_masked fuel al pr allow it1 s1) as [sm x]. destruct IH as [IH|IH]; cbn [snd] in IH; subst x; [now left|now right].
    + rewrite IH. destruct r2; injection Hc as <-; reflexivity.
Qed.
End Stream.

Lemma parse_hits {A} (nl : A -> bool) m conv s ds allow s' r :
  parse_config_options nl conv s ds allow = (s', r) ->
  (exists al pr, cf_allowed ds [] = Ok al /\ cf_add_options [] al = Ok pr) ->
  if hits m s' then throws (snd (parse_config_masked nl m conv s ds allow)) else parse_config_masked nl m conv s ds allow = (s', Done r).
Proof.
  intros H (al & pr & E1 & E2). unfold parse_config_options in H. unfold parse_config_masked. rewrite E1 in *. cbn [bind] in *. rewrite E2 in *. cbn [bind] in *.
  destruct (it_get nl conv (S (S (length (st_rest s)))) al pr allow (mk_it false popt_new []) s) as [s1 r1] eqn:E.
  pose proof (get_hits nl m conv al pr allow _ _ _ _ _ E) as Hg.
  assert (Hm : hits m s1 = true -> hits m s' = true).
  { intros H1. destruct r1 as [it1|e|u|]; try (now injection H as <- <-).
    destruct (it_copy nl conv (S (S (S (length (st_rest s))))) al pr allow it1 s1) as [s2 r2] eqn:Ec. apply (copy_stuck nl m) in Ec; auto. destruct r2; now injection H as <- <-. }
  destruct (hits m s1) eqn:Eh.
  - rewrite Hm by reflexivity. destruct (get_masked nl m conv (S (S (length (st_rest s)))) al pr allow _ s) as [sm x].
    destruct Hg as [Hg|Hg]; cbn [snd] in Hg; subst x; [now left|now right].
  - rewrite Hg. destruct r1 as [it1|e|u|]; try (injection H as <- <-; now rewrite Eh).
    destruct (it_copy nl conv (S (S (S (length (st_rest s))))) al pr allow it1 s1) as [s2 r2] eqn:Ec. pose proof (copy_hits nl m conv al pr allow _ _ _ _ _ Eh Ec) as Hc.
    assert (Es : s' = s2) by (destruct r2; now injection H as <- <-). subst s2. destruct (hits m s').
    + destruct (copy_masked nl m conv _ al pr allow it1 s1) as [sm x]. destruct Hc as [Hc|Hc]; cbn [snd] in Hc; subst x; [now left|now right].
    + rewrite Hc. destruct r2; injection H as <-; reflexivity.
Qed.

Lemma parse_description {A} (nl : A -> bool) m conv s ds allow :
  (~ exists al pr, cf_allowed ds [] = Ok al /\ cf_add_options [] al = Ok pr) ->
  parse_config_masked nl m conv s ds allow = let (s', r) := parse_config_options nl conv s ds allow in (s', Done r).
Proof.
  intros H. unfold parse_config_masked, parse_config_options. destruct (cf_allowed ds []) as [al|e|u|] eqn:E1; cbn [bind]; auto.
  destruct (cf_add_options [] al) as [pr|e|u|] eqn:E2; cbn [bind]; auto. destruct H. eauto.
Qed.

(** ** The state at the end *)

Section End.
Context {A : Type}.
Variable nl : A -> bool.
Variable conv : list A -> outcome str.
Variables (al pr : sset) (allow : bool).

Lemma getline_bits s : st_good s = true -> match std_getline nl s with
  | (Some l, s') => st_fail s' = false /\ st_bad s' = false /\ st_broken s' = st_broken s /\ (st_eof s' = true -> st_broken s = false)
  | (None, s') => if st_broken s then st_eof s' = false /\ st_bad s' = true else st_eof s' = true /\ st_fail s' = true /\ st_bad s' = false
  end.
Proof.
  intros Hg. unfold std_getline. rewrite Hg. cbn [negb]. destruct (break_line nl (st_rest s)) as [[l r]|]; [repeat split; auto; discriminate|].
  destruct (st_broken s); [repeat split; auto; discriminate|]. destruct (st_rest s); repeat split; auto.
Qed.

Lemma getline_eof s l s' : std_getline nl s = (Some l, s') -> st_good s' = false -> st_eof s' = true /\ st_fail s' = false /\ st_bad s' = false /\ st_broken s' = false.
Proof.
  intros H Hb. unfold std_getline in H. destruct (negb (st_good s)); [discriminate|].
  destruct (break_line nl (st_rest s)) as [[l' r]|]; [injection H as _ <-; discriminate|].
  destruct (st_broken s) eqn:E; [discriminate|]. destruct (st_rest s); [discriminate|]. injection H as _ <-. auto.
Qed.

(** After success *)
Lemma srun_ok_bits f : forall s p s' os, srun nl conv al pr allow f p s = (s', Ok os) ->
  (st_good s = true -> if st_broken s then st_eof s' = false /\ st_bad s' = true else st_eof s' = true /\ st_fail s' = true /\ st_bad s' = false)
  /\ (st_good s = false -> st_eof s' = st_eof s /\ st_fail s' = true /\ st_bad s' = st_bad s).
Proof.
  induction f as [|f IH]; intros s p s' os H; [discriminate|]. cbn [srun] in H. split; intros Hg.
  - pose proof (getline_bits s Hg) as Hb. destruct (std_getline nl s) as [[l|] s1] eqn:E; [|injection H as <- _; exact Hb].
    assert (Hrec : exists p' os', srun nl conv al pr allow f p' s1 = (s', Ok os')).
    { destruct (line_of conv al pr allow p l) as [[p'|nm v b]|e|u|]; try discriminate; eauto.
      destruct (srun nl conv al pr allow f p s1) as [s2 [os'|e|u|]] eqn:Er; try discriminate. injection H as <- _. eauto. }
    destruct Hrec as (p' & os' & Hr). destruct (IH _ _ _ _ Hr) as [H1 H2]. destruct Hb as (_ & _ & Hbr & _). rewrite <- Hbr.
    destruct (st_good s1) eqn:Eg; [exact (H1 eq_refl)|]. destruct (getline_eof _ _ _ E Eg) as (K1 & K2 & K3 & K4). rewrite K4.
    destruct (H2 eq_refl) as (L1 & L2 & L3). rewrite L1, L3. auto.
  - unfold std_getline in H. rewrite Hg in H. cbn [negb] in H. injection H as <- _. auto.
Qed.

Lemma took_last s ls l s' : took nl s (ls ++ [l]) s' -> exists s1, std_getline nl s1 = (Some l, s') /\ st_broken s1 = st_broken s.
Proof.
  revert s. induction ls as [|x ls IH]; intros s H; inversion H as [|? ? s1 ? ? Hg Ht]; subst.
  - inversion Ht; subst. eauto.
  - destruct (IH _ Ht) as (s2 & H1 & H2). exists s2. split; auto. rewrite H2. unfold std_getline in Hg.
    destruct (negb (st_good s)); [discriminate|]. destruct (break_line nl (st_rest s)) as [[l' r]|]; [now injection Hg as _ <-|].
    destruct (st_broken s); [discriminate|]. destruct (st_rest s); [discriminate|]. now injection Hg as _ <-.
Qed.

(** After failure: no error, and the end only if it is the last line *)
Lemma srun_stop_bits f s p s' r : measure s < f -> srun nl conv al pr allow f p s = (s', r) -> (forall os, r <> Ok os) ->
  st_fail s' = false /\ st_bad s' = false /\ (st_eof s' = true -> st_broken s = false).
Proof.
  intros Hf H Hr. destruct (srun_stop _ _ _ _ _ _ _ _ _ _ Hf H Hr) as (ls & l & Ht & _). apply took_last in Ht.
  destruct Ht as (s1 & Hg & Hb). rewrite <- Hb. assert (Hgood : st_good s1 = true).
  { unfold std_getline in Hg. destruct (st_good s1); auto. discriminate. }
  pose proof (getline_bits s1 Hgood) as Hx. rewrite Hg in Hx. tauto.
Qed.
End End.

(** ** No error: nothing to throw again *)

Section Sound.
Context {A : Type}.
Variable nl : A -> bool.
Variable m : mask.
Variable conv : list A -> outcome str.
Variables (al pr : sset) (allow : bool).

Lemma getline_sound s x s' : st_broken s = false -> getline_masked nl m s = (x, s') -> x <> Rethrown /\ st_broken s' = false.
Proof.
  intros Hb. unfold getline_masked, set_state. rewrite Hb. destruct (negb (st_good s)).
  { destruct (hits m _); intros [= <- <-]; split; auto; discriminate. }
  destruct (break_line nl (st_rest s)) as [[l r]|]; [intros [= <- <-]; split; auto; discriminate|].
  destruct (st_rest s); destruct (hits m _); intros [= <- <-]; split; auto; discriminate.
Qed.

Lemma get_sound fuel : forall it s x s', st_broken s = false -> get_masked nl m conv fuel al pr allow it s = (s', x) ->
  x <> Rethrown /\ st_broken s' = false.
Proof.
  induction fuel as [|fuel IH]; intros it s x s' Hb; cbn [get_masked]; [intros [= <- <-]; split; auto; discriminate|].
  destruct (getline_masked nl m s) as [y s1] eqn:E. destruct (getline_sound _ _ _ Hb E) as [Hy H1].
  destruct y as [| |[l|]]; try (now destruct Hy); try (intros [= <- <-]; split; auto; discriminate).
  destruct (let* line := conv l in _) as [[p|nm v b]|e|u|]; try (intros [= <- <-]; split; auto; discriminate). eauto.
Qed.

Lemma copy_sound fuel : forall it s x s', st_broken s = false -> copy_masked nl m conv fuel al pr allow it s = (s', x) ->
  x <> Rethrown /\ st_broken s' = false.
Proof.
  induction fuel as [|fuel IH]; intros it s x s' Hb; cbn [copy_masked]; [intros [= <- <-]; split; auto; discriminate|].
  destruct (it_equal it it_end); [intros [= <- <-]; split; auto; discriminate|].
  destruct (get_masked nl m conv _ al pr allow it s) as [s1 y] eqn:E. destruct (get_sound _ _ _ _ _ Hb E) as [Hy H1].
  destruct y as [| |[it1|e|u|]]; try (now destruct Hy); try (intros [= <- <-]; split; auto; discriminate).
  destruct (copy_masked nl m conv fuel al pr allow it1 s1) as [s2 z] eqn:E2. destruct (IH _ _ _ _ H1 E2) as [Hz H2].
  destruct z as [| |[os|e|u|]]; intros [= <- <-]; split; auto; discriminate.
Qed.

End Sound.

Lemma parse_sound {A} (nl : A -> bool) m conv s ds allow :
  st_broken s = false -> snd (parse_config_masked nl m conv s ds allow) <> Rethrown.
Proof.
  intros Hb. unfold parse_config_masked. destruct (let* allowed := cf_allowed ds [] in _) as [[al pr]|e|u|]; try discriminate.
  destruct (get_masked nl m conv _ al pr allow _ s) as [s1 y] eqn:E. destruct (get_sound _ _ _ _ _ _ _ _ _ _ _ Hb E) as [Hy H1].
  destruct y as [| |[it1|e|u|]]; try (now destruct Hy); try discriminate.
  destruct (copy_masked nl m conv _ al pr allow it1 s1) as [s2 z] eqn:E2. destruct (copy_sound _ _ _ _ _ _ _ _ _ _ _ H1 E2) as [Hz H2].
  destruct z as [| |[os|e|u|]]; try discriminate; now destruct Hz.
Qed.

(** ** What is left after an exception *)

Section After.
Context {A : Type}.
Variable nl : A -> bool.
Variable m : mask.
Variable conv : list A -> outcome str.
Variables (al pr : sset) (allow : bool).

Definition after {X} (s s' : stream A) (x : io X) : Prop :=
  st_broken s' = st_broken s /\ (exists read, st_rest s = read ++ st_rest s')
  /\ (throws x -> hits m s' = true) /\ (x = Rethrown -> on_bad m = true /\ st_broken s = true /\ s' = mk_stream [] true false false true).

Lemma break_line_rest : forall (t l r : list A), break_line nl t = Some (l, r) -> exists read, t = read ++ r.
Proof.
  induction t as [|a t IH]; intros l r H; cbn in H; [discriminate|]. destruct (nl a).
  - injection H as <- <-. exists [a]. reflexivity.
  - destruct (break_line nl t) as [[l' r']|]; [|discriminate]. injection H as <- <-. destruct (IH _ _ eq_refl) as (read & ->).
    exists (a :: read). reflexivity.
Qed.

Lemma getline_after s x s' : getline_masked nl m s = (x, s') -> after s s' x.
Proof.
  unfold getline_masked, after. intros H. destruct (st_good s) eqn:G; cbn [negb] in H.
  - destruct (break_line nl (st_rest s)) as [[l r]|] eqn:B.
    + injection H as <- <-. cbn. split; [reflexivity|]. split; [eapply break_line_rest; eassumption|]. split; [intros [D|D]|intros D]; discriminate D.
    + destruct (st_broken s) eqn:Br.
      * destruct (on_bad m) eqn:Ob.
        -- injection H as <- <-. cbn. split; [reflexivity|]. split; [exists (st_rest s); rewrite app_nil_r; reflexivity|].
           split; [intros _; unfold hits; cbn; rewrite Ob, !orb_true_r; reflexivity|auto].
        -- destruct (st_rest s) as [|a t]; unfold set_state in H; injection H as <- <-; cbn.
           ++ split; [reflexivity|]. split; [exists []; reflexivity|]. split; [|destruct (hits _ _); discriminate].
              intros [D|D]; destruct (hits m _) eqn:Hh; try discriminate D; solve [exact Hh | reflexivity].
           ++ split; [reflexivity|]. split; [exists (a :: t); rewrite app_nil_r; reflexivity|]. split; [intros [D|D]|intros D]; discriminate D.
      * destruct (st_rest s) as [|a t]; unfold set_state in H; injection H as <- <-; cbn.
        -- split; [reflexivity|]. split; [exists []; reflexivity|]. split; [|destruct (hits _ _); discriminate].
           intros [D|D]; destruct (hits m _) eqn:Hh; try discriminate D; solve [exact Hh | reflexivity].
        -- split; [reflexivity|]. split; [exists (a :: t); rewrite app_nil_r; reflexivity|]. split; [|destruct (hits _ _); discriminate].
           intros [D|D]; destruct (hits m _) eqn:Hh; try discriminate D; solve [exact Hh | reflexivity].
  - unfold set_state in H. injection H as <- <-. cbn. split; [reflexivity|]. split; [exists []; reflexivity|].
    split; [|destruct (hits _ _); discriminate]. intros [D|D]; destruct (hits m _) eqn:Hh; try discriminate D; solve [exact Hh | reflexivity].
Qed.

Lemma after_trans {X Y} s s1 s2 (x : io X) (y : io Y) : after s s1 x -> after s1 s2 y -> after s s2 y.
Proof.
  intros (B1 & (r1 & R1) & _ & _) (B2 & (r2 & R2) & T2 & C2). unfold after. rewrite <- B1. split; [assumption|].
  split; [exists (r1 ++ r2); rewrite R1, R2, app_assoc; reflexivity|]. split; assumption.
Qed.

Lemma after_done {X Y} s s' (x : io X) (y : Y) : after s s' x -> after s s' (Done y).
Proof. intros (B & R & _). split; [assumption|]. split; [assumption|]. split; [intros [D|D]|intros D]; discriminate D. Qed.

Lemma after_refl {X} s (y : X) : after s s (Done y).
Proof. split; [reflexivity|]. split; [exists []; reflexivity|]. split; [intros [D|D]|intros D]; discriminate D. Qed.

Lemma after_failure {X Y} s s' : after s s' (@Failure X) -> after s s' (@Failure Y).
Proof. intros (B & R & T & _). split; [assumption|]. split; [assumption|]. split; [intros _; apply T; left; reflexivity|discriminate]. Qed.

Lemma after_rethrown {X Y} s s' : after s s' (@Rethrown X) -> after s s' (@Rethrown Y).
Proof. intros (B & R & T & C). split; [assumption|]. split; [assumption|]. split; [intros _; apply T; right; reflexivity|intros _; auto]. Qed.

Lemma get_after fuel : forall it s x s', get_masked nl m conv fuel al pr allow it s = (s', x) -> after s s' x.
Proof.
  induction fuel as [|fuel IH]; intros it s x s' H; cbn [get_masked] in H; [injection H as <- <-; apply after_refl|].
  destruct (getline_masked nl m s) as [y s1] eqn:G. apply getline_after in G.
  destruct y as [| |[l|]]; try (injection H as <- <-; eauto using after_done, after_failure, after_rethrown; fail).
  destruct (let* line := conv l in cf_line al pr allow (it_prefix it) line) as [[p|n v b]| | |];
    try (injection H as <- <-; eauto using after_done; fail).
  apply IH in H. eapply after_trans; eassumption.
Qed.

Lemma copy_after fuel : forall it s x s', copy_masked nl m conv fuel al pr allow it s = (s', x) -> after s s' x.
Proof.
  induction fuel as [|fuel IH]; intros it s x s' H; cbn [copy_masked] in H; [injection H as <- <-; apply after_refl|].
  destruct (it_equal it it_end); [injection H as <- <-; apply after_refl|].
  destruct (get_masked nl m conv (S (S (length (st_rest s)))) al pr allow it s) as [s1 y] eqn:G. apply get_after in G.
  destruct y as [| |[it'| | |]]; try (injection H as <- <-; eauto using after_done, after_failure, after_rethrown; fail).
  destruct (copy_masked nl m conv fuel al pr allow it' s1) as [s2 z] eqn:C. apply IH in C.
  assert (T := after_trans _ _ _ _ _ G C).
  destruct z as [| |[os| | |]]; injection H as <- <-; eauto using after_done.
Qed.
End After.

Lemma parse_after {A} (nl : A -> bool) m conv s ds allow s' x :
  parse_config_masked nl m conv s ds allow = (s', x) -> after m s s' x.
Proof.
  unfold parse_config_masked. destruct (let* al := cf_allowed ds [] in let* pr := cf_add_options [] al in Ok (al, pr)) as [[al pr]| | |];
    intros H; try (injection H as <- <-; apply after_refl).
  destruct (get_masked nl m conv (S (S (length (st_rest s)))) al pr allow (mk_it false popt_new []) s) as [s1 y] eqn:G. apply get_after in G.
  destruct y as [| |[it'| | |]]; try (injection H as <- <-; eauto using after_done, after_failure, after_rethrown; fail).
  destruct (copy_masked nl m conv (S (S (S (length (st_rest s))))) al pr allow it' s1) as [s2 z] eqn:C. apply copy_after in C.
  assert (T := after_trans _ _ _ _ _ _ G C).
  destruct z as [| |[os| | |]]; injection H as <- <-; eauto using after_done, after_failure, after_rethrown.
Qed.
