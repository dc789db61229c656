(** Facts about character conversion. *)

From Coq Require Import List Ascii String NArith ZArith Bool Arith Lia.
From Verif Require Import Base Errors Spec BaseFacts Convert SpecConvert.
Import ListNotations.

Section Facet.
Context {State From To : Type}.
Variable code : character_code State From To.
Variable longest : nat.
Variable f : cvt State From To.
Hypothesis P : proper code longest.
Hypothesis F : facet code f.

Lemma converts_app st a x st1 b y st2 : converts code st a x st1 -> converts code st1 b y st2 -> converts code st (a ++ b) (x ++ y) st2.
Proof. induction 1; intros H2; auto. rewrite <- !app_assoc. econstructor; eauto. Qed.

Lemma converts_nonempty st a x st1 : converts code st a x st1 -> (a = [] <-> x = []).
Proof.
  intros H. destruct H as [|st c o st1 cs os st2 H1 H2]; [tauto|].
  pose proof (code_source _ _ P _ _ _ _ H1). destruct (code_target _ _ P _ _ _ _ H1) as [Ho _].
  destruct c; [contradiction|]. destruct o; [contradiction|]. split; discriminate.
Qed.

Lemma converts_prefix st a x st1 : converts code st a x st1 -> forall b y st2, converts code st (a ++ b) y st2 ->
  exists y', y = x ++ y' /\ converts code st1 b y' st2.
Proof.
  induction 1 as [|st c o st1 cs os st2 Hc _ IH]; intros b y st3 H; [now exists y|].
  remember ((c ++ cs) ++ b) as t eqn:E1. destruct H as [st|st c' o' st1' cs' os' st3 Hc' Hr].
  - pose proof (code_source _ _ P _ _ _ _ Hc) as Hn. destruct c; [contradiction|discriminate].
  - rewrite <- app_assoc in E1. destruct (code_prefix _ _ P _ _ _ _ _ _ _ _ _ Hc' Hc E1) as (-> & -> & ->).
    apply app_inv_head in E1. subst cs'. destruct (IH _ _ _ Hr) as (y' & -> & Hy). exists y'. now rewrite <- app_assoc.
Qed.

Lemma converts_fun st a x st1 y st2 : converts code st a x st1 -> converts code st a y st2 -> x = y /\ st1 = st2.
Proof.
  intros H1 H2. rewrite <- (app_nil_r a) in H2. destruct (converts_prefix _ _ _ _ H1 _ _ _ H2) as (y' & -> & Hy).
  assert (y' = []) by (apply (converts_nonempty _ _ _ _ Hy); reflexivity). subst y'. inversion Hy as [|? c o ? cs os ? Hc].
  - now rewrite app_nil_r.
  - subst. apply (code_source _ _ P) in Hc. destruct c; [contradiction|discriminate].
Qed.

Lemma loop_correct bufsize : longest <= bufsize -> forall fuel st from, List.length from <= fuel ->
  (exists out st', converts code st from out st' /\ convert_loop fuel f bufsize st from = Ok out)
  \/ ((forall out st', ~ converts code st from out st') /\ convert_loop fuel f bufsize st from = Throw conversion_failed).
Proof.
  intros Hb. induction fuel as [|fuel IH]; intros st from Hl.
  - destruct from; [|cbn in Hl; lia]. left. exists [], st. split; [constructor|reflexivity].
  - destruct from as [|c0 from0]; [left; exists [], st; split; [constructor|reflexivity]|].
    set (from := c0 :: from0) in *. cbn [convert_loop]. unfold from at 1 2. fold from.
    pose proof (F st from bufsize) as HF. destruct (f st from bufsize) as [[[r st'] n] out].
    destruct HF as (d & rest & Ef & -> & Hc & Hroom & Hr).
    assert (Hstuck : stuck code st' rest -> rest <> [] -> forall out0 st0, ~ converts code st from out0 st0).
    { intros Hs Hne out0 st0 H0. rewrite Ef in H0. destruct (converts_prefix _ _ _ _ Hc _ _ _ H0) as (y & -> & Hy).
      inversion Hy as [|? c1 o1 ? cs1 os1 ? H1 H2]; subst; [contradiction|]. exact (Hs _ _ _ _ eq_refl H1). }
    assert (Hgo : is_empty out = false ->
      (exists out1 st1, converts code st from out1 st1 /\
        (let* rest0 := convert_loop fuel f bufsize st' (skipn (List.length d) from) in Ok (out ++ rest0)) = Ok out1)
      \/ ((forall out1 st1, ~ converts code st from out1 st1) /\
        (let* rest0 := convert_loop fuel f bufsize st' (skipn (List.length d) from) in Ok (out ++ rest0)) = Throw conversion_failed)).
    { intros Ho. assert (Es : skipn (List.length d) from = rest) by (rewrite Ef, skipn_app, skipn_all, Nat.sub_diag; reflexivity).
      rewrite Es. assert (Hd : List.length rest <= fuel).
      { destruct d as [|x d]; [apply converts_nonempty in Hc; destruct Hc as [Hc _]; rewrite Hc in Ho by reflexivity; discriminate|].
        apply (f_equal (@List.length From)) in Ef. rewrite app_length in Ef. cbn in Ef, Hl. lia. }
      destruct (IH st' rest Hd) as [(o2 & st2 & H2 & ->)|[H2 ->]].
      - left. exists (out ++ o2), st2. split; [rewrite Ef; eapply converts_app; eauto|reflexivity].
      - right. split; [|reflexivity]. intros o3 st3 H3. rewrite Ef in H3.
        destruct (converts_prefix _ _ _ _ Hc _ _ _ H3) as (y & -> & Hy). eapply H2, Hy. }
    destruct r.
    + destruct (is_empty out) eqn:Eo; [|now apply Hgo].
      subst rest. rewrite app_nil_r in Ef. subst d. apply is_empty_true in Eo. subst out.
      apply converts_nonempty in Hc. destruct Hc as [_ Hc]. unfold from in Hc. now specialize (Hc eq_refl).
    + destruct Hr as [Hne Hr]. destruct (is_empty out) eqn:Eo; [|now apply Hgo].
      right. split; [|reflexivity]. destruct Hr as [Hr|(c & o & st2 & tl & _ & Hk & Hlt)]; [now apply Hstuck|].
      apply is_empty_true in Eo. subst out. destruct (code_target _ _ P _ _ _ _ Hk) as [_ Ht]. cbn in Hlt. lia.
    + destruct Hr as [Hne Hr]. right. split; [now apply Hstuck|reflexivity].
Qed.

End Facet.

(** ** The encoder *)

Lemma byte_N n : (n < 256)%N -> N_of_ascii (byte_of n) = n.
Proof. apply N_ascii_embedding. Qed.

Lemma pow64 k : (2 ^ (6 * k) = 64 ^ k)%N.
Proof. rewrite N.pow_mul_r. reflexivity. Qed.

Lemma encode_utf8 w : (w < 2 ^ 31)%N -> utf8 w (utf8_encode w).
Proof.
  intros H. unfold utf8_encode, cont_octet_out_count. cbv zeta.
  assert (Hm : forall k b, (w < 64 ^ k * b)%N -> (b <= 256)%N -> (w / 64 ^ k mod 256 = w / 64 ^ k)%N).
  { intros k b Hk Hb. apply N.mod_small. apply N.lt_le_trans with b; auto. apply N.div_lt_upper_bound; auto.
    apply N.pow_nonzero. discriminate. }
  assert (Ht : forall k : nat, cont_octet w k = tail w (N.of_nat k)).
  { intros k. unfold cont_octet, tail. now rewrite pow64. }
  destruct (N.ltb_spec w 128) as [H1|H1].
  - cbn [octet1_modifier cont_octets]. change (6 * N.of_nat 0)%N with 0%N. cbn [N.add]. change (2 ^ 0)%N with 1%N.
    rewrite N.div_1_r, N.mod_small by lia. apply utf8_1. exact H1.
  - destruct (N.ltb_spec w 2048) as [H2|H2]; [|destruct (N.ltb_spec w 65536) as [H3|H3]; [|destruct (N.ltb_spec w 2097152) as [H4|H4];
      [|destruct (N.ltb_spec w 67108864) as [H5|H5]]]]; cbn [octet1_modifier cont_octets]; rewrite !Ht, pow64.
    + rewrite (Hm _ 32%N) by (cbn; lia). apply utf8_2. split; assumption.
    + rewrite (Hm _ 16%N) by (cbn; lia). apply utf8_3. split; assumption.
    + rewrite (Hm _ 8%N) by (cbn; lia). apply utf8_4. split; assumption.
    + rewrite (Hm _ 4%N) by (cbn; lia). apply utf8_5. split; assumption.
    + rewrite (Hm _ 2%N) by (cbn; lia). apply utf8_6. split; assumption.
Qed.

Lemma utf8_fun w c c' : utf8 w c -> utf8 w c' -> c = c'.
Proof.
  intros [? H|? H|? H|? H|? H|? H] H'; inversion H' as [? G|? G|? G|? G|? G|? G]; subst; try reflexivity; exfalso;
  cbn in H, G; lia.
Qed.

Lemma utf8_lt w c : utf8 w c -> (w < 2 ^ 31)%N.
Proof. intros [? H|? H|? H|? H|? H|? H]; cbn in *; lia. Qed.

(** ** The decoder *)

(** [bytes] is a leading octet followed by the right number of continuing ones. *)
Inductive sequence : str -> N -> Prop :=
| sequence_intro c cs w : invalid_leading c = false ->
    List.length cs = cont_octet_count c ->
    read_cont (cont_octet_count c) (N_of_ascii c - octet1_modifier (cont_octet_count c)) cs = Some (Some w) ->
    sequence (c :: cs) w.

Lemma read_cont_app k : forall acc cs rest, List.length cs = k -> forall r,
  read_cont k acc cs = Some (Some r) -> read_cont k acc (cs ++ rest) = Some (Some r).
Proof.
  induction k as [|k IH]; intros acc [|c cs] rest Hl r H; cbn in *; try discriminate; auto.
  destruct (invalid_continuing c); [discriminate|]. apply IH; auto.
Qed.

Lemma read_cont_split k : forall acc s r, read_cont k acc s = Some (Some r) ->
  exists cs rest, s = cs ++ rest /\ List.length cs = k /\ read_cont k acc cs = Some (Some r).
Proof.
  induction k as [|k IH]; intros acc s r H.
  - exists [], s. auto.
  - destruct s as [|c s]; cbn [read_cont] in H; [discriminate|]. destruct (invalid_continuing c) eqn:E; [discriminate|].
    destruct (IH _ _ _ H) as (cs & rest & -> & Hl & Hr). exists (c :: cs), rest. cbn [read_cont List.length app]. rewrite E, Hl. auto.
Qed.

Definition in_code : character_code unit char wchar := fun _ c o _ => exists w, sequence c w /\ o = [w].
Definition out_code : character_code unit wchar char := fun _ c o _ => exists w, c = [w] /\ o = utf8_encode w.

Lemma sequence_prefix c w c' w' x x' : sequence c w -> sequence c' w' -> c ++ x = c' ++ x' -> c = c' /\ w = w'.
Proof.
  intros [b cs r Hi Hl Hr] [b' cs' r' Hi' Hl' Hr'] E. cbn [app] in E. injection E as <- E.
  assert (cs = cs').
  { apply (f_equal (firstn (cont_octet_count b))) in E.
    rewrite !firstn_app in E. rewrite Hl, Hl', Nat.sub_diag in E. cbn [firstn] in E. rewrite !app_nil_r in E.
    rewrite <- Hl in E at 1. rewrite <- Hl' in E. now rewrite !firstn_all in E. }
  subst cs'. split; congruence.
Qed.

Lemma proper_in : proper in_code 1.
Proof.
  split.
  - intros st c o st' (w & [b cs r _ _ _] & _). discriminate.
  - intros st c o st' (w & _ & ->). split; [discriminate|cbn; lia].
  - intros st c o [] c' o' [] x x' (w & H & ->) (w' & H' & ->) E. destruct (sequence_prefix _ _ _ _ _ _ H H' E) as [-> ->]. auto.
Qed.

Lemma encode_length w : 1 <= List.length (utf8_encode w) <= 6.
Proof.
  unfold utf8_encode. cbv zeta. cbn [List.length].
  assert (H : forall k, List.length (cont_octets w k) = k) by (induction k; cbn; auto). rewrite H.
  unfold cont_octet_out_count. repeat (destruct (_ <? _)%N; try lia).
Qed.

Lemma proper_out : proper out_code 6.
Proof.
  split.
  - intros st c o st' (w & -> & _). discriminate.
  - intros st c o st' (w & _ & ->). pose proof (encode_length w). destruct (utf8_encode w); cbn in *; [lia|]. split; [discriminate|lia].
  - intros st c o [] c' o' [] x x' (w & -> & ->) (w' & -> & ->) E. injection E as -> _. auto.
Qed.

Lemma facet_out : facet out_code utf8_out.
Proof.
  intros [] from room. unfold utf8_out. revert room. induction from as [|w from IH]; intros room; cbn [utf8_out_loop].
  - exists [], []. repeat split; [constructor|cbn; lia].
  - destruct room as [|room'] eqn:Er.
    + exists [], (w :: from). split; [reflexivity|]. split; [reflexivity|]. split; [constructor|]. split; [cbn; lia|]. split; [discriminate|].
      right. exists [w], (utf8_encode w), tt, from. split; [reflexivity|]. split; [now exists w|]. pose proof (encode_length w). cbn. lia.
    + cbv zeta. rewrite <- Er. destruct (Nat.leb_spec (List.length (utf8_encode w)) room) as [Hl|Hl].
      * specialize (IH (room - List.length (utf8_encode w))). destruct (utf8_out_loop from _) as [[r n] out].
        destruct IH as (d & rest & -> & -> & Hc & Ho & Hr). exists (w :: d), rest. split; [reflexivity|]. split; [reflexivity|].
        split; [change (w :: d) with ([w] ++ d); econstructor; [now exists w|exact Hc]|]. rewrite app_length. split; [lia|].
        destruct r; auto. destruct Hr as [Hne [Hs|(c & o & st2 & tl & E & Hk & Hlt)]]; split; auto. right.
        exists c, o, st2, tl. split; auto. split; auto. lia.
      * exists [], (w :: from). split; [reflexivity|]. split; [reflexivity|]. split; [constructor|]. split; [cbn; lia|]. split; [discriminate|].
        right. exists [w], (utf8_encode w), tt, from. split; [reflexivity|]. split; [now exists w|]. cbn. exact Hl.
Qed.

Lemma in_skip from : forall k room, utf8_in_loop from k room
  = match utf8_in_loop (skipn k from) 0 room with (r, n, out) => (r, (min k (List.length from) + n)%nat, out) end.
Proof.
  induction from as [|c from IH]; intros k room.
  - destruct k; reflexivity.
  - destruct k as [|k].
    + cbn [skipn min]. destruct (utf8_in_loop (c :: from) 0 room) as [[r n] out]. reflexivity.
    + cbn [utf8_in_loop skipn List.length]. rewrite (IH k room). destruct (utf8_in_loop (skipn k from) 0 room) as [[r n] out].
      reflexivity.
Qed.

Lemma facet_in : facet in_code utf8_in.
Proof.
  intros [] from room. unfold utf8_in.
  remember (List.length from) as len eqn:El. revert from room El. induction len as [len IH] using lt_wf_ind. intros from room El.
  destruct from as [|c from].
  { exists [], []. repeat split; [constructor|cbn; lia]. }
  cbn [utf8_in_loop]. destruct room as [|room].
  { exists [], (c :: from). split; [reflexivity|]. split; [reflexivity|]. split; [constructor|]. split; [cbn; lia|]. split; [discriminate|].
    destruct (invalid_leading c) eqn:Ei.
    - left. intros c0 o st' rest E (w & Hs & _). destruct Hs as [b cs r Hi _ _]. cbn [app] in E. injection E as <- _. congruence.
    - destruct (read_cont (cont_octet_count c) (N_of_ascii c - octet1_modifier (cont_octet_count c)) from) as [[w|]|] eqn:Er.
      + destruct (read_cont_split _ _ _ _ Er) as (cs & rest & -> & Hl & Hr). right. exists (c :: cs), [w], tt, rest.
        split; [reflexivity|]. split; [exists w; split; [now constructor|reflexivity]|]. cbn. lia.
      + left. intros c0 o st' rest E (w & Hs & _). destruct Hs as [b cs r Hi Hl Hr]. cbn [app] in E. injection E as <- ->.
        rewrite (read_cont_app _ _ _ rest Hl _ Hr) in Er. discriminate.
      + left. intros c0 o st' rest E (w & Hs & _). destruct Hs as [b cs r Hi Hl Hr]. cbn [app] in E. injection E as <- ->.
        rewrite (read_cont_app _ _ _ rest Hl _ Hr) in Er. discriminate. }
  destruct (invalid_leading c) eqn:Ei.
  { exists [], (c :: from). split; [reflexivity|]. split; [reflexivity|]. split; [constructor|]. split; [cbn; lia|]. split; [discriminate|].
    intros c0 o st' rest E (w & Hs & _). destruct Hs as [b cs r Hi _ _]. cbn [app] in E. injection E as <- _. congruence. }
  cbv zeta. destruct (read_cont (cont_octet_count c) (N_of_ascii c - octet1_modifier (cont_octet_count c)) from) as [[w|]|] eqn:Er.
  - destruct (read_cont_split _ _ _ _ Er) as (cs & rest & -> & Hl & Hr). rewrite in_skip.
    assert (Es : skipn (cont_octet_count c) (cs ++ rest) = rest) by (rewrite <- Hl, skipn_app, skipn_all, Nat.sub_diag; reflexivity).
    rewrite Es. specialize (IH (List.length rest)). cbn [List.length] in El. rewrite app_length in El.
    specialize (IH ltac:(lia) rest room eq_refl). destruct (utf8_in_loop rest 0 room) as [[r n] out].
    destruct IH as (d & rest' & -> & -> & Hc & Ho & Hk). exists ((c :: cs) ++ d), rest'.
    split; [cbn [app]; now rewrite <- app_assoc|]. split; [rewrite !app_length, Hl, Nat.min_l by lia; cbn; lia|].
    split; [apply (converts_cons _ _ (c :: cs) [w] tt); [exists w; split; [now constructor|reflexivity]|exact Hc]|].
    split; [cbn; lia|]. destruct r; auto. destruct Hk as [Hne [Hs|(c1 & o & st2 & tl & E & Hk & Hlt)]]; split; auto. right.
    exists c1, o, st2, tl. split; auto. split; auto. cbn [List.length]. lia.
  - exists [], (c :: from). split; [reflexivity|]. split; [reflexivity|]. split; [constructor|]. split; [cbn; lia|]. split; [discriminate|].
    left. intros c0 o st' rest E (w & Hs & _). destruct Hs as [b cs r Hi Hl Hr]. cbn [app] in E. injection E as <- ->.
    rewrite (read_cont_app _ _ _ rest Hl _ Hr) in Er. discriminate.
  - exists [], (c :: from). split; [reflexivity|]. split; [reflexivity|]. split; [constructor|]. split; [cbn; lia|]. split; [discriminate|].
    intros c0 o st' rest E (w & Hs & _). destruct Hs as [b cs r Hi Hl Hr]. cbn [app] in E. injection E as <- ->.
    rewrite (read_cont_app _ _ _ rest Hl _ Hr) in Er. discriminate.
Qed.

Lemma tail_N w k : N_of_ascii (tail w k) = (128 + w / 64 ^ k mod 64)%N.
Proof. apply byte_N. pose proof (N.mod_lt (w / 64 ^ k) 64 ltac:(discriminate)). lia. Qed.

Lemma tail_valid w k : invalid_continuing (tail w k) = false.
Proof.
  unfold invalid_continuing. cbv zeta. rewrite tail_N. pose proof (N.mod_lt (w / 64 ^ k) 64 ltac:(discriminate)).
  revert H. generalize (w / 64 ^ k mod 64)%N. intros x H.
  destruct (N.ltb_spec (128 + x) 128); [lia|]. destruct (N.ltb_spec 191 (128 + x)); [lia|reflexivity].
Qed.

Fixpoint tails (w : N) (k : nat) : str :=
  match k with O => [] | S k' => tail w (N.of_nat k') :: tails w k' end.

Lemma read_tails w : forall k acc, read_cont k acc (tails w k) = Some (Some (acc * 64 ^ N.of_nat k + w mod 64 ^ N.of_nat k)%N).
Proof.
  induction k as [|k IH]; intros acc.
  - cbn [tails read_cont]. change (64 ^ N.of_nat 0)%N with 1%N. rewrite N.mod_1_r, N.mul_1_r, N.add_0_r. reflexivity.
  - cbn [tails read_cont]. rewrite tail_valid, tail_N, IH. do 2 f_equal.
    rewrite (N.add_comm 128), N.add_sub.
    rewrite Nat2N.inj_succ, N.pow_succ_r'. set (b := (64 ^ N.of_nat k)%N).
    assert (Hb : b <> 0%N) by (apply N.pow_nonzero; discriminate).
    assert (E : (w mod (b * 64) = w mod b + b * ((w / b) mod 64))%N) by (apply N.mod_mul_r; [exact Hb|discriminate]).
    rewrite (N.mul_comm 64 b), E. ring.
Qed.

Lemma lead_N mark w k b : (w < 64 ^ k * b)%N -> (mark + b <= 256)%N -> N_of_ascii (lead mark w k) = (mark + w / 64 ^ k)%N.
Proof.
  intros H Hb. apply byte_N. assert (w / 64 ^ k < b)%N by (apply N.div_lt_upper_bound; [apply N.pow_nonzero; discriminate|exact H]). lia.
Qed.

Ltac bound := match goal with |- (_ < ?r)%N => let v := eval vm_compute in r in change r with v end; lia.

Lemma utf8_sequence w c : utf8 w c -> sequence c w.
Proof.
  assert (G : forall w mark k b, (k <= 5)%nat -> (1 <= k)%nat -> octet1_modifier k = mark -> (w < 64 ^ N.of_nat k * b)%N ->
    (mark + b <= 254)%N ->
    (forall n, (mark <= n < mark + b)%N -> ((127 <? n)%N && (n <? 192)%N) || (253 <? n)%N = false) ->
    (forall ch, (mark <= N_of_ascii ch < mark + b)%N -> cont_octet_count ch = k) ->
    sequence (lead mark w (N.of_nat k) :: tails w k) w).
  { clear w c. intros w mark k b Hk5 Hk1 Hm Hw Hb Hi Hc. pose proof (lead_N mark w (N.of_nat k) b Hw ltac:(lia)) as El.
    assert (Hq : (w / 64 ^ N.of_nat k < b)%N) by (apply N.div_lt_upper_bound; [apply N.pow_nonzero; discriminate|exact Hw]).
    assert (Hin : (mark <= mark + w / 64 ^ N.of_nat k < mark + b)%N) by (revert Hq; generalize (w / 64 ^ N.of_nat k)%N; intros; lia).
    assert (Ec : cont_octet_count (lead mark w (N.of_nat k)) = k) by (apply Hc; now rewrite El).
    constructor.
    - unfold invalid_leading. cbv zeta. rewrite El. apply Hi. exact Hin.
    - rewrite Ec. clear. induction k; cbn; auto.
    - rewrite Ec, El, Hm, read_tails. do 2 f_equal. rewrite (N.add_comm mark), N.add_sub, N.mul_comm. symmetry. apply N.div_mod. apply N.pow_nonzero. discriminate. }
  assert (Hb : forall a b, (a < b)%N -> (a <? b)%N = true) by (intros; now apply N.ltb_lt).
  assert (Hnb : forall a b, (b <= a)%N -> (a <? b)%N = false) by (intros; now apply N.ltb_ge).
  assert (Hle : forall a b, (a <= b)%N -> (a <=? b)%N = true) by (intros; now apply N.leb_le).
  assert (Hnle : forall a b, (b < a)%N -> (a <=? b)%N = false) by (intros; now apply N.leb_gt).
  intros Hu. destruct Hu as [w H|w H|w H|w H|w H|w H].
  - cbn in H. assert (En : N_of_ascii (ascii_of_N w) = w) by (apply byte_N; lia).
    assert (Ec : cont_octet_count (ascii_of_N w) = 0) by (unfold cont_octet_count; cbv zeta; rewrite En, Hle by lia; reflexivity).
    constructor.
    + unfold invalid_leading. cbv zeta. rewrite En, (Hnb 127%N), (Hnb 253%N) by lia. reflexivity.
    + now rewrite Ec.
    + rewrite Ec, En. cbn [read_cont octet1_modifier]. now rewrite N.sub_0_r.
  - apply (G w 192%N 1 32%N); [lia|lia|reflexivity|cbn in H; bound|lia| |].
    + intros n Hn. rewrite (Hnb n 192%N), (Hnb 253%N) by lia. now rewrite andb_false_r.
    + intros ch Hn. unfold cont_octet_count. cbv zeta. rewrite Hnle, !Hle by lia. reflexivity.
  - apply (G w 224%N 2 16%N); [lia|lia|reflexivity|cbn in H; bound|lia| |].
    + intros n Hn. rewrite (Hnb n 192%N), (Hnb 253%N) by lia. now rewrite andb_false_r.
    + intros ch Hn. unfold cont_octet_count. cbv zeta. rewrite Hnle, (Hle 192%N), (Hnle _ 223%N), (Hle 224%N), (Hle _ 239%N) by lia. reflexivity.
  - apply (G w 240%N 3 8%N); [lia|lia|reflexivity|cbn in H; bound|lia| |].
    + intros n Hn. rewrite (Hnb n 192%N), (Hnb 253%N) by lia. now rewrite andb_false_r.
    + intros ch Hn. unfold cont_octet_count. cbv zeta.
      rewrite Hnle, (Hle 192%N), (Hnle _ 223%N), (Hle 224%N), (Hnle _ 239%N), (Hle 240%N), (Hle _ 247%N) by lia. reflexivity.
  - apply (G w 248%N 4 4%N); [lia|lia|reflexivity|cbn in H; bound|lia| |].
    + intros n Hn. rewrite (Hnb n 192%N), (Hnb 253%N) by lia. now rewrite andb_false_r.
    + intros ch Hn. unfold cont_octet_count. cbv zeta.
      rewrite Hnle, (Hle 192%N), (Hnle _ 223%N), (Hle 224%N), (Hnle _ 239%N), (Hle 240%N), (Hnle _ 247%N), (Hle 248%N), (Hle _ 251%N) by lia. reflexivity.
  - apply (G w 252%N 5 2%N); [lia|lia|reflexivity|cbn in H; bound|lia| |].
    + intros n Hn. rewrite (Hnb n 192%N), (Hnb 253%N) by lia. now rewrite andb_false_r.
    + intros ch Hn. unfold cont_octet_count. cbv zeta.
      rewrite Hnle, (Hle 192%N), (Hnle _ 223%N), (Hle 224%N), (Hnle _ 239%N), (Hle 240%N), (Hnle _ 247%N), (Hle 248%N), (Hnle _ 251%N) by lia. reflexivity.
Qed.

(** ** The functions *)

Lemma convert_correct State From To (code : character_code State From To) longest f init s :
  proper code longest -> facet code f -> longest <= 32 ->
  (exists out st', converts code init s out st' /\ convert f init s = Ok out)
  \/ ((forall out st', ~ converts code init s out st') /\ convert f init s = Throw conversion_failed).
Proof. intros P F H. unfold convert. eapply loop_correct; eauto. Qed.

Lemma to_utf8_text ws s : utf8_text ws s -> to_utf8 ws = Ok s.
Proof.
  intros H. assert (Hc : converts out_code tt ws s tt).
  { induction H as [|w c ws s Hw _ IH]; [constructor|]. apply (converts_cons _ _ [w] c tt); auto.
    exists w. split; [reflexivity|]. eapply utf8_fun; [exact Hw|]. apply encode_utf8. eapply utf8_lt; eauto. }
  destruct (convert_correct _ _ _ out_code 6 utf8_out tt ws proper_out facet_out ltac:(lia)) as [(o & [] & Ho & E)|[Hn _]].
  - destruct (converts_fun _ _ proper_out _ _ _ _ _ _ Hc Ho) as [-> _]. exact E.
  - exfalso. exact (Hn _ _ Hc).
Qed.

Lemma from_utf8_text ws s : utf8_text ws s -> from_utf8 s = Ok ws.
Proof.
  intros H. assert (Hc : converts in_code tt s ws tt).
  { induction H as [|w c ws s Hw _ IH]; [constructor|]. apply (converts_cons _ _ c [w] tt); auto.
    exists w. split; [|reflexivity]. now apply utf8_sequence. }
  destruct (convert_correct _ _ _ in_code 1 utf8_in tt s proper_in facet_in ltac:(lia)) as [(o & [] & Ho & E)|[Hn _]].
  - destruct (converts_fun _ _ proper_in _ _ _ _ _ _ Hc Ho) as [-> _]. exact E.
  - exfalso. exact (Hn _ _ Hc).
Qed.

Lemma utf8_text_exists ws : Forall (fun w => w < 2 ^ 31)%N ws -> exists s, utf8_text ws s.
Proof.
  induction 1 as [|w ws H _ (s & IH)]; [exists []; constructor|]. exists (utf8_encode w ++ s). constructor; auto. now apply encode_utf8.
Qed.
