(** Facts about the help output. *)

From Coq Require Import List Ascii String NArith ZArith Bool Arith Lia Permutation.
From Verif Require Import Base Errors Spec BaseFacts Values OptDesc Format SpecFormat.
Import ListNotations.

Set Implicit Arguments.

Local Open Scope Z_scope.

(** ** Lists *)

Lemma len_app a b : len (a ++ b) = len a + len b.
Proof. unfold len. rewrite app_length. lia. Qed.

Lemma len_cons c s : len (c :: s) = len s + 1.
Proof. unfold len. cbn [List.length]. lia. Qed.

Lemma len_nonneg s : 0 <= len s.
Proof. unfold len. lia. Qed.

Lemma len_0 s : len s = 0 -> s = [].
Proof. unfold len. destruct s; auto. cbn [List.length]. lia. Qed.

Lemma len_pos s : s <> [] -> 0 < len s.
Proof. unfold len. destruct s; [easy|]. cbn [List.length]. lia. Qed.

Lemma len_blanks n : 0 <= n -> len (blanks n) = n.
Proof. intros. unfold len, blanks. rewrite repeat_length. lia. Qed.

Lemma app_same_length A (a b c d : list A) : a ++ b = c ++ d -> List.length a = List.length c -> a = c /\ b = d.
Proof.
  revert c. induction a as [|x a IH]; intros [|y c] E L; try discriminate; auto.
  injection E as -> E. injection L as L. destruct (IH _ E L) as [-> ->]. auto.
Qed.

Lemma app_same_len a b c d : a ++ b = c ++ d -> len a = len c -> a = c /\ b = d.
Proof. unfold len. intros. apply app_same_length; auto. lia. Qed.

(** ** Breaking lines *)

Lemma after_last_space_spec r : exists a b,
  rev r = a ++ b /\ List.length b = after_last_space r /\ without c_space b /\ (a = [] \/ exists a', a = a' ++ [c_space]).
Proof.
  induction r as [|c r IH]; cbn [after_last_space].
  - exists [], []. repeat split; auto. intros [].
  - destruct (char_eqb_spec c c_space) as [->|N].
    + exists (rev r ++ [c_space]), []. rewrite app_nil_r. cbn [rev]. repeat split; eauto. intros [].
    + destruct IH as (a & b & E & L & W & A). exists a, (b ++ [c]). cbn [rev]. rewrite E, app_assoc.
      repeat split; auto.
      * rewrite app_length. cbn [List.length]. lia.
      * intros I. apply in_app_or in I as [I|[I|[]]]; auto.
Qed.

Lemma line_break_spec text w :
  0 < w -> text <> [] -> fits32 (len text) ->
  exists n, line_break text w = Ok n /\ (0 < n)%nat
    /\ (skipn n text = [] /\ len text <= w \/ skipn n text <> [] /\ break_at w (firstn n text) (skipn n text)).
Proof.
  intros Hw Ht Hf. unfold line_break. rewrite Z.mod_small by exact Hf. fold (len text).
  set (n := Z.to_nat _).
  assert (Hn : (n = Z.to_nat (Z.min (len text) w))) by (subst n; destruct (Z.ltb_spec (len text) w); f_equal; lia).
  clearbody n. pose proof (len_pos Ht) as Hp.
  assert (Hn' : Z.of_nat n = Z.min (len text) w) by lia. clear Hn.
  assert (Hlen : List.length (firstn n text) = n) by (rewrite firstn_length; unfold len in *; lia).
  destruct (rev (firstn n text)) as [|last r] eqn:R.
  { apply (f_equal (@List.length _)) in R. rewrite rev_length, Hlen in R. cbn in R. lia. }
  assert (F : firstn n text = rev r ++ [last]).
  { rewrite <- (rev_involutive (firstn n text)), R. reflexivity. }
  destruct (skipn n text) as [|next rest] eqn:S.
  - exists n. split; auto. split; [lia|]. left. split; auto.
    apply (f_equal (@List.length _)) in S. rewrite skipn_length in S. cbn in S. unfold len in *. lia.
  - assert (Hlt : len text > Z.of_nat n).
    { apply (f_equal (@List.length _)) in S. rewrite skipn_length in S. cbn in S. unfold len in *. lia. }
    assert (Hnw : Z.of_nat n = w) by lia.
    assert (Hfn : len (firstn n text) = w) by (unfold len; lia).
    destruct (char_eqb_spec last c_space) as [El|El]; cbn [negb andb].
    { exists n. split; auto. split; [lia|]. right. rewrite S. split; [discriminate|].
      rewrite F in *. subst last. now constructor. }
    destruct (char_eqb_spec next c_space) as [En|En]; cbn [negb andb].
    { exists n. split; auto. split; [lia|]. right. rewrite S. split; [discriminate|].
      rewrite F in *. subst next. now constructor. }
    destruct (after_last_space_spec (last :: r)) as (a & b & E & L & W & A).
    rewrite <- R in E. rewrite rev_involutive in E. rewrite L in * || rewrite <- L.
    rewrite Hlen.
    destruct (Nat.eqb_spec (List.length b) n) as [Eb|Eb]; cbn [negb andb].
    { exists n. split; auto. split; [lia|]. right. rewrite S. split; [discriminate|].
      assert (a = []). { rewrite E, app_length in Hlen. destruct a; auto. cbn in Hlen. lia. }
      subst a. rewrite E in *. cbn [app] in *.
      apply (@break_long_word w [] b next rest); auto. unfold len. rewrite Eb, Hnw. apply Z.div_le_upper_bound; lia. }
    destruct (Z.ltb_spec (Z.of_nat (List.length b)) (w / 2)) as [Lt|Ge].
    + destruct A as [->|[a' ->]].
      { rewrite E in Hlen. cbn [app] in Hlen. congruence. }
      assert (K : (n - List.length b = List.length (a' ++ [c_space]))%nat) by (rewrite E, app_length in Hlen; lia).
      exists (n - List.length b)%nat. split; auto.
      split; [rewrite K, app_length; cbn; lia|]. right.
      assert (T : text = (a' ++ [c_space]) ++ (b ++ next :: rest)).
      { rewrite <- (firstn_skipn n text), S, E, <- app_assoc. reflexivity. }
      rewrite K, T, firstn_app_exact, skipn_app_exact. split; [destruct b; discriminate|].
      rewrite E, len_app in Hfn.
      apply break_move_word; auto. split; [|exact Lt].
      apply len_pos. intros ->. rewrite app_nil_r in E. rewrite F in E. apply app_inj_tail in E as [_ E]. congruence.
    + exists n. split; auto. split; [lia|]. right. rewrite S. split; [discriminate|].
      rewrite E in *. apply break_long_word; auto.
Qed.

Lemma trim_spec text : text <> [] ->
  trimmed text (match text with
                | c :: c2 :: t => if char_eqb c c_space && negb (char_eqb c2 c_space) then c2 :: t else text
                | _ => text
                end)
  /\ (match text with
                | c :: c2 :: t => if char_eqb c c_space && negb (char_eqb c2 c_space) then c2 :: t else text
                | _ => text
                end) <> []
  /\ (List.length (match text with
                | c :: c2 :: t => if char_eqb c c_space && negb (char_eqb c2 c_space) then c2 :: t else text
                | _ => text
                end) <= List.length text)%nat.
Proof.
  intros N. destruct text as [|c [|c2 t]]; [easy| |].
  - split; [apply trimmed_none; discriminate|]. split; auto.
  - destruct (char_eqb_spec c c_space) as [->|Nc]; cbn [andb].
    + destruct (char_eqb_spec c2 c_space) as [->|N2]; cbn [negb].
      * split; [|split; [discriminate|cbn; lia]]. apply trimmed_none. congruence.
      * split; [|split; [discriminate|cbn; lia]]. now constructor.
    + split; [|split; [discriminate|cbn; lia]]. apply trimmed_none. congruence.
Qed.

Lemma format_lines_rest fuel : forall text par_indent indent w,
  0 < w -> text <> [] -> fits32 (len text) -> (List.length text <= fuel)%nat ->
  exists next lines, trimmed text next /\ wrapped w w next lines
    /\ format_lines fuel text false par_indent indent w = Ok (join (c_nl :: spaces indent) lines).
Proof.
  induction fuel as [|fuel IH]; intros text par_indent indent w Hw Ht Hf Hl.
  { destruct text; [easy|cbn in Hl; lia]. }
  destruct (trim_spec Ht) as (T1 & T2 & T3).
  assert (U : forall t, t = text -> format_lines (S fuel) t false par_indent indent w =
      let text1 := match text with
                 | c :: c2 :: t =>
                     if char_eqb c c_space && negb (char_eqb c2 c_space) then c2 :: t else text
                 | _ => text
                 end in
      let* n := line_break text1 w in
      let line := firstn n text1 in
      let rest := skipn n text1 in
      let pad := match rest with [] => [] | _ => c_nl :: spaces indent end in
      let* more := format_lines fuel rest false par_indent indent w in
      Ok (line ++ pad ++ more)).
  { intros ? ->. destruct text; [easy|reflexivity]. }
  rewrite (U _ eq_refl). clear U. cbv zeta.
  revert T1 T2 T3. generalize (match text with
                 | c :: c2 :: t =>
                     if char_eqb c c_space && negb (char_eqb c2 c_space) then c2 :: t else text
                 | _ => text
                 end).
  intros next T1 T2 T3.
  assert (Hf' : fits32 (len next)) by (unfold fits32, len in *; lia).
  destruct (line_break_spec Hw T2 Hf') as (n & -> & Hn & [[E L]|[E B]]); cbn [bind].
  - rewrite E. exists next, [next]. split; auto. split; [now constructor|].
    replace (format_lines fuel [] false par_indent indent w) with (@Ok str []) by (destruct fuel; reflexivity).
    cbn [bind join app]. rewrite app_nil_r.
    pose proof (firstn_skipn n next) as F. rewrite E, app_nil_r in F. rewrite F. reflexivity.
  - assert (Lr : (List.length (skipn n next) < List.length next)%nat).
    { rewrite skipn_length. destruct next; [easy|]. cbn [List.length]. lia. }
    destruct (IH (skipn n next) par_indent indent w Hw E) as (nx & lines & A1 & A2 & ->); [unfold fits32, len in *; lia|lia|].
    exists next, (firstn n next :: lines). split; auto. split.
    + rewrite <- (firstn_skipn n next) at 1.
      apply wrapped_more with (next := nx); auto.
      destruct next; [easy|]. destruct n; [lia|]. discriminate.
    + cbn [bind]. assert (lines <> []) by (destruct A2; discriminate).
      destruct lines as [|l0 ls]; [easy|]. cbn [join].
      destruct (skipn n next); [easy|]. reflexivity.
Qed.

Lemma format_lines_first fuel text hang indent w :
  0 < w < 4294967296 -> 0 <= hang < w -> 0 <= indent -> indent + hang < 4294967296 ->
  text <> [] -> fits32 (len text) -> (List.length text <= fuel)%nat ->
  exists lines, wrapped w (w - hang) text lines
    /\ format_lines fuel text true hang indent w = Ok (join (c_nl :: spaces (indent + hang)) lines).
Proof.
  intros Hw Hh Hi Hih Ht Hf Hl.
  destruct fuel as [|fuel]. { destruct text; [easy|cbn in Hl; lia]. }
  assert (U : format_lines (S fuel) text true hang indent w =
      let* n := line_break text w in
      let line := firstn n text in
      let rest := skipn n text in
      let pad := match rest with [] => [] | _ => c_nl :: spaces (Z.modulo (indent + hang) 4294967296) end in
      let* more := format_lines fuel rest false hang (Z.modulo (indent + hang) 4294967296) (usub w hang) in
      Ok (line ++ pad ++ more)).
  { destruct text; [easy|reflexivity]. }
  rewrite U. clear U. unfold usub. rewrite !Z.mod_small by lia.
  destruct (@line_break_spec text w) as (n & -> & Hn & [[E L]|[E B]]); auto; try lia; cbn [bind]; cbv zeta.
  - rewrite E. exists [text]. split; [now constructor|].
    replace (format_lines fuel [] false hang (indent + hang) (w - hang)) with (@Ok str []) by (destruct fuel; reflexivity).
    cbn [bind join app]. rewrite app_nil_r.
    pose proof (firstn_skipn n text) as F. rewrite E, app_nil_r in F. rewrite F. reflexivity.
  - assert (Lr : (List.length (skipn n text) < List.length text)%nat).
    { rewrite skipn_length. destruct text; [easy|]. cbn [List.length]. lia. }
    destruct (@format_lines_rest fuel (skipn n text) hang (indent + hang) (w - hang)) as (nx & lines & A1 & A2 & ->); auto;
      [lia|unfold fits32, len in *; lia|lia|].
    exists (firstn n text :: lines). split.
    + rewrite <- (firstn_skipn n text) at 1.
      apply wrapped_more with (next := nx); auto.
      destruct text; [easy|]. destruct n; [lia|]. discriminate.
    + cbn [bind]. assert (lines <> []) by (destruct A2; discriminate).
      destruct lines as [|l0 ls]; [easy|]. cbn [join].
      destruct (skipn n text); [easy|]. reflexivity.
Qed.

(** ** Paragraphs *)

Lemma filter_none c s : without c s -> filter (char_eqb c) s = [].
Proof.
  induction s as [|x s IH]; intros W; auto. cbn [filter].
  destruct (char_eqb_spec c x) as [->|N]; [destruct W; now left|]. apply IH. intros I. apply W. now right.
Qed.

Lemma count_char_app c a b : count_char c (a ++ b) = (count_char c a + count_char c b)%nat.
Proof. unfold count_char. rewrite filter_app, app_length. reflexivity. Qed.

Lemma count_char_0 c s : without c s -> count_char c s = 0%nat.
Proof. unfold count_char. intros W. now rewrite filter_none. Qed.

Lemma count_char_pos c s : In c s -> (0 < count_char c s)%nat.
Proof.
  intros I. apply in_split in I as (a & b & ->). rewrite count_char_app. unfold count_char at 2. cbn [filter].
  rewrite char_eqb_refl. cbn. lia.
Qed.

Lemma count_char_cons_same c s : count_char c (c :: s) = S (count_char c s).
Proof. unfold count_char. cbn [filter]. rewrite char_eqb_refl. reflexivity. Qed.

Lemma untabbed_len par text hang : untabbed par text hang -> 0 <= hang <= len text /\ len text <= len par.
Proof.
  intros [W|a b -> Wa Wb]; unfold len; [lia|].
  rewrite !app_length. cbn [List.length]. lia.
Qed.

Lemma erase_at_app a c b : erase_at (List.length a) (a ++ c :: b) = a ++ b.
Proof.
  unfold erase_at. rewrite firstn_app_exact. f_equal.
  replace (a ++ c :: b) with ((a ++ [c]) ++ b) by (rewrite <- app_assoc; reflexivity).
  replace (S (List.length a)) with (List.length (a ++ [c])) by (rewrite app_length; cbn; lia).
  apply skipn_app_exact.
Qed.

Lemma format_tail text hang indent w :
  0 < w < 4294967296 -> 0 <= hang < w -> 0 <= indent -> indent + hang < 4294967296 -> fits32 (len text) ->
  exists lines, wrapped w (w - hang) text lines
    /\ (if Z.ltb (Z.of_nat (List.length text)) w then Ok text
        else format_lines (S (List.length text)) text true hang indent w)
       = Ok (join (c_nl :: spaces (indent + hang)) lines).
Proof.
  intros Hw Hh Hi Hih Hf.
  destruct (Z.ltb_spec (Z.of_nat (List.length text)) w) as [Lt|Ge].
  - exists [text]. split; [constructor; unfold len; lia|reflexivity].
  - apply format_lines_first; auto.
    intros ->. cbn in Ge. lia.
Qed.

Lemma format_paragraph_spec ndebug par text hang indent L :
  untabbed par text hang -> 0 <= indent -> indent + hang < L -> fits32 L -> fits32 (len par) ->
  exists lines, wrapped (L - indent) (L - indent - hang) text lines
    /\ format_paragraph ndebug par indent L = Ok (join (c_nl :: blanks (indent + hang)) lines).
Proof.
  intros Hu Hi Hh HL Hp. pose proof (untabbed_len Hu) as [Hl1 Hl2].
  assert (Hf : fits32 (len text)) by (unfold fits32, len in *; lia).
  unfold format_paragraph, assert_, usub.
  replace (indent <? L) with true by (symmetry; apply Z.ltb_lt; lia). cbn [orb bind].
  unfold fits32 in HL. rewrite Z.mod_small by lia.
  destruct Hu as [W|a b -> Wa Wb].
  - replace (find_char c_tab par) with (@None nat) by (symmetry; now apply find_char_None). cbn [bind].
    destruct (@format_tail par 0 indent (L - indent)) as (lines & A & B); auto; try lia. exists lines. auto.
  - rewrite find_char_app by auto.
    replace (1 <? count_char c_tab (a ++ c_tab :: b))%nat with false.
    2:{ symmetry. apply Nat.ltb_ge. rewrite count_char_app, count_char_cons_same, !count_char_0; auto. }
    rewrite erase_at_app. fold (len a).
    replace (len a <? L - indent) with true by (symmetry; apply Z.ltb_lt; lia). cbn [orb bind].
    replace (L - indent <=? len a) with false by (symmetry; apply Z.leb_gt; lia).
    destruct (@format_tail (a ++ b) (len a) indent (L - indent)) as (lines & A & B); auto; try lia. exists lines. auto.
Qed.

(** The four kinds of paragraphs. *)
Lemma paragraph_cases par :
  (exists text hang, untabbed par text hang /\ (hang = 0 \/ In c_tab par)) \/ (exists a b c, par = a ++ c_tab :: b ++ c_tab :: c).
Proof.
  destruct (find_char c_tab par) as [n|] eqn:F.
  - apply find_char_Some in F as (a & b & -> & W & _).
    destruct (find_char c_tab b) as [m|] eqn:G.
    + apply find_char_Some in G as (b1 & b2 & -> & _ & _). right. eauto.
    + apply find_char_None in G. left. exists (a ++ b), (len a). split; [econstructor; eauto|].
      right. apply in_or_app. right. now left.
  - apply find_char_None in F. left. exists par, 0. split; [now constructor|]. auto.
Qed.

Lemma format_two_tabs ndebug a b c indent L :
  0 <= indent < L -> fits32 L ->
  format_paragraph ndebug (a ++ c_tab :: b ++ c_tab :: c) indent L =
  Throw (plain_exn (po_error $"Only one tab per paragraph is allowed in the options description")).
Proof.
  intros Hi HL. unfold format_paragraph, assert_.
  replace (indent <? L) with true by (symmetry; apply Z.ltb_lt; lia). cbn [orb bind].
  destruct (find_char c_tab (a ++ c_tab :: b ++ c_tab :: c)) as [n|] eqn:F.
  2:{ apply find_char_None in F. destruct F. apply in_or_app. right. now left. }
  replace (1 <? count_char c_tab (a ++ c_tab :: b ++ c_tab :: c))%nat with true; [reflexivity|].
  symmetry. apply Nat.ltb_lt. rewrite count_char_app, count_char_cons_same, count_char_app, count_char_cons_same. lia.
Qed.

(** A tab too far to the right: an assertion fails, or it is ignored. *)
Lemma format_late_tab ndebug par text hang indent L :
  untabbed par text hang -> In c_tab par -> 0 <= indent < L -> L <= indent + hang -> fits32 L -> fits32 (len par) ->
  format_paragraph ndebug par indent L = if ndebug then format_paragraph true text indent L else Undef UB_assert.
Proof.
  intros Hu HI Hi Hh HL Hp. destruct Hu as [W|a b -> Wa Wb]; [easy|].
  unfold format_paragraph, assert_, usub. unfold fits32 in HL.
  replace (indent <? L) with true by (symmetry; apply Z.ltb_lt; lia). cbn [orb bind].
  rewrite Z.mod_small by lia. rewrite find_char_app by auto.
  replace (1 <? count_char c_tab (a ++ c_tab :: b))%nat with false.
  2:{ symmetry. apply Nat.ltb_ge. rewrite count_char_app, count_char_cons_same, !count_char_0; auto. }
  rewrite erase_at_app. fold (len a).
  replace (len a <? L - indent) with false by (symmetry; apply Z.ltb_ge; lia). destruct ndebug; cbn [orb bind]; auto.
  replace (L - indent <=? len a) with true by (symmetry; apply Z.leb_le; lia).
  replace (find_char c_tab (a ++ b)) with (@None nat); [reflexivity|].
  symmetry. apply find_char_None. intros I. apply in_app_or in I as [I|I]; auto.
Qed.

Lemma format_paragraph_sound par indent L out :
  0 <= indent -> fits32 L -> fits32 (len par) ->
  format_paragraph false par indent L = Ok out -> paragraph indent L par out.
Proof.
  intros Hi HL Hp H.
  assert (Hlt : indent < L).
  { unfold format_paragraph, assert_ in H. destruct (Z.ltb_spec indent L); auto. discriminate. }
  destruct (paragraph_cases par) as [(text & hang & Hu & Ht)|(a & b & c & ->)].
  2:{ rewrite format_two_tabs in H by auto. discriminate. }
  pose proof (untabbed_len Hu) as Hl.
  destruct (Z_lt_le_dec (indent + hang) L) as [Lt|Ge].
  - destruct (@format_paragraph_spec false par text hang indent L) as (lines & W & E); auto.
    rewrite E in H. injection H as <-. econstructor; eauto.
  - destruct Ht as [->|Ht]; [lia|].
    rewrite (format_late_tab false Hu Ht) in H by auto. discriminate.
Qed.

Lemma format_paragraph_complete ndebug par indent L out :
  fits32 L -> fits32 (len par) -> paragraph indent L par out -> 
  exists out', paragraph indent L par out' /\ format_paragraph ndebug par indent L = Ok out'.
Proof.
  intros HL Hp H. destruct H as [text hang lines Hu [Hi Hh] W].
  destruct (@format_paragraph_spec ndebug par text hang indent L) as (lines' & W' & E); auto.
  eexists. split; [econstructor; eauto|exact E].
Qed.

(** ** A paragraph is broken in one way *)

Lemma last_two_words line1 word1 line2 word2 :
  line1 ++ c_space :: word1 = line2 ++ word2 -> without c_space word2 -> (List.length word2 <= List.length word1)%nat.
Proof.
  revert line2. induction line1 as [|x line1 IH]; intros line2 E W; cbn [app] in E.
  - destruct line2 as [|y line2]; cbn [app] in E.
    + subst word2. destruct W. now left.
    + injection E as _ ->. rewrite app_length. lia.
  - destruct line2 as [|y line2]; cbn [app] in E.
    + subst word2. destruct W. right. apply in_or_app. right. now left.
    + injection E as _ E. eauto.
Qed.

Lemma break_at_len w line rest : break_at w line rest ->
  len line = w \/
  exists l word c r, line = l ++ [c_space] /\ rest = word ++ c :: r /\ without c_space word /\ c <> c_space
    /\ len line + len word = w /\ 0 < len word < w / 2.
Proof. intros []; auto. right. exists line0, word, c, rest0. repeat split; auto; lia. Qed.

Lemma break_at_fits w line rest : break_at w line rest -> len line <= w < len line + len rest \/ rest = [].
Proof.
  intros H. destruct rest as [|c0 r0]; [now right|left].
  apply break_at_len in H as [H|(l & word & c & r & -> & -> & _ & _ & H & H')].
  - rewrite len_cons. pose proof (len_nonneg r0). lia.
  - rewrite (len_app word), len_cons. pose proof (len_nonneg r). lia.
Qed.

Lemma moved_not_full w l word c r line rest :
  (l ++ [c_space]) ++ word ++ c :: r = line ++ rest ->
  without c_space word -> c <> c_space -> len (l ++ [c_space]) + len word = w -> 0 < len word < w / 2 ->
  len line = w -> break_at w line rest -> False.
Proof.
  intros E W Nc L1 L2 Lf B.
  assert (E' : ((l ++ [c_space]) ++ word) ++ c :: r = line ++ rest) by (rewrite <- app_assoc; exact E).
  apply app_same_len in E' as [E1 E2]; [|rewrite len_app; lia].
  destruct B as [line0 rest0 Hl|line0 rest0 Hl|line0 word0 c0 rest0 Hl Hw Hh Hc|line0 word0 c0 rest0 Hl Hw Hc Hh].
  - assert (word <> []) by (intros ->; unfold len in L2; cbn in L2; lia).
    destruct (exists_last H) as (w0 & x & ->). rewrite app_assoc in E1. apply app_inj_tail in E1 as [_ ->].
    apply W. apply in_or_app. right. now left.
  - congruence.
  - rewrite <- app_assoc in E1. cbn [app] in E1. apply last_two_words in E1; auto. unfold len in *. lia.
  - lia.
Qed.

Lemma break_at_fun w line1 rest1 line2 rest2 :
  line1 ++ rest1 = line2 ++ rest2 -> break_at w line1 rest1 -> break_at w line2 rest2 -> line1 = line2 /\ rest1 = rest2.
Proof.
  intros E B1 B2.
  destruct (break_at_len B1) as [L1|(l1 & w1 & c1 & r1 & -> & -> & W1 & C1 & L1 & H1)];
  destruct (break_at_len B2) as [L2|(l2 & w2 & c2 & r2 & -> & -> & W2 & C2 & L2 & H2)].
  - apply app_same_len; auto. lia.
  - exfalso. eapply moved_not_full with (w := w); [symmetry; exact E| | | | | |exact B1]; auto.
  - exfalso. eapply moved_not_full with (w := w); [exact E| | | | | |exact B2]; auto.
  - assert (E' : ((l1 ++ [c_space]) ++ w1) ++ c1 :: r1 = ((l2 ++ [c_space]) ++ w2) ++ c2 :: r2)
      by (rewrite <- !app_assoc; rewrite <- !app_assoc in E; exact E).
    apply app_same_len in E' as [E1 E2]; [|rewrite !len_app in *; lia].
    rewrite <- !app_assoc in E1. cbn [app] in E1.
    pose proof E1 as E1'. 
    assert (A : (List.length w2 <= List.length w1)%nat).
    { apply last_two_words with (line1 := l1) (line2 := l2 ++ [c_space]); auto. rewrite <- app_assoc. exact E1. }
    assert (A' : (List.length w1 <= List.length w2)%nat).
    { apply last_two_words with (line1 := l2) (line2 := l1 ++ [c_space]); auto. rewrite <- app_assoc. symmetry. exact E1. }
    rewrite !app_assoc in E. apply app_same_len; [rewrite !app_assoc; exact E|].
    unfold len in *. rewrite !app_length in *. cbn [List.length] in *. lia.
Qed.

Lemma trimmed_fun t a b : trimmed t a -> trimmed t b -> a = b.
Proof.
  intros [c t0 Hc|t0 Ht] H.
  - remember (c_space :: c :: t0) as x eqn:E in H. destruct H as [c' t' Hc'|t' Ht'].
    + now injection E as -> ->.
    + destruct Hc. eapply Ht'. exact E.
  - destruct H as [c' t' Hc'|t' Ht']; auto. destruct Hc'. eapply Ht. reflexivity.
Qed.

Lemma trimmed_len t a : trimmed t a -> len a <= len t.
Proof. intros []; rewrite ?len_cons; lia. Qed.

Lemma wrapped_fun w w' text lines1 lines2 : wrapped w w' text lines1 -> wrapped w w' text lines2 -> lines1 = lines2.
Proof.
  intros H. revert lines2. induction H as [w w' line Hl|w w' line rest next lines Nl Nr B T Hw IH]; intros lines2 H2.
  - remember line as text eqn:E in H2. destruct H2 as [line2 Hl2|line2 rest2 next2 lines2 Nl2 Nr2 B2 T2 Hw2].
    + now subst.
    + exfalso. subst line. destruct (break_at_fits B2) as [A|A]; [|easy]. rewrite len_app in Hl. lia.
  - remember (line ++ rest) as text eqn:E in H2. destruct H2 as [line2 Hl2|line2 rest2 next2 lines2 Nl2 Nr2 B2 T2 Hw2].
    + exfalso. subst line2. destruct (break_at_fits B) as [A|A]; [|easy]. rewrite len_app in Hl2. lia.
    + symmetry in E. destruct (break_at_fun E B B2) as [-> ->].
      rewrite (trimmed_fun T2 T) in Hw2. f_equal. apply IH; auto.
Qed.

Lemma untabbed_fun par t1 h1 t2 h2 : untabbed par t1 h1 -> untabbed par t2 h2 -> t1 = t2 /\ h1 = h2.
Proof.
  intros [W|a b E Wa Wb] [W'|a' b' E' Wa' Wb']; auto.
  - destruct W. rewrite E'. apply in_or_app. right. now left.
  - destruct W'. rewrite E. apply in_or_app. right. now left.
  - pose proof (find_char_app (c := c_tab) (a := a) b Wa) as F. pose proof (find_char_app (c := c_tab) (a := a') b' Wa') as F'.
    rewrite <- E in F. rewrite <- E' in F'. rewrite F in F'. injection F' as F'.
    rewrite E in E'. destruct (app_same_length _ _ _ _ E' F') as [-> E2]. injection E2 as ->. auto.
Qed.

Lemma paragraph_fun indent L par o1 o2 : paragraph indent L par o1 -> paragraph indent L par o2 -> o1 = o2.
Proof.
  intros [t1 h1 l1 U1 B1 W1] [t2 h2 l2 U2 B2 W2]. destruct (untabbed_fun U1 U2) as [-> ->].
  rewrite (wrapped_fun W1 W2). reflexivity.
Qed.

(** ** Lines fit, nothing is lost *)

Lemma wrapped_fit w w' text lines : wrapped w w' text lines -> 0 <= w' ->
  exists first others, lines = first :: others /\ len first <= w /\ Forall (fun l => len l <= w') others.
Proof.
  intros H. induction H as [w w' line Hl|w w' line rest next lines Nl Nr B T Hw IH]; intros H0.
  - exists line, []. auto.
  - destruct (IH H0) as (f & o & -> & Hf & Ho). exists line, (f :: o). split; auto. split; auto.
    destruct (break_at_fits B) as [A|A]; [lia|easy].
Qed.

Lemma visible_app a b : visible (a ++ b) = visible a ++ visible b.
Proof. apply filter_app. Qed.

Lemma visible_blanks n : visible (blanks n) = [].
Proof. unfold blanks. induction (Z.to_nat n); auto. Qed.

Lemma visible_trimmed t a : trimmed t a -> visible a = visible t.
Proof. intros []; auto. Qed.

Lemma visible_join sep ls : visible sep = [] -> visible (join sep ls) = List.concat (map visible ls).
Proof.
  intros S. induction ls as [|l ls IH]; auto. destruct ls as [|l2 ls].
  - cbn. now rewrite app_nil_r.
  - cbn [join map List.concat] in *. rewrite !visible_app, IH, S. reflexivity.
Qed.

Lemma wrapped_visible w w' text lines : wrapped w w' text lines -> List.concat (map visible lines) = visible text.
Proof.
  intros H. induction H as [w w' line Hl|w w' line rest next lines Nl Nr B T Hw IH].
  - cbn. apply app_nil_r.
  - cbn [map List.concat]. rewrite IH, visible_app. f_equal. now apply visible_trimmed.
Qed.

Lemma untabbed_visible par text hang : untabbed par text hang -> visible text = visible par.
Proof. intros [W|a b -> _ _]; auto. rewrite !visible_app. reflexivity. Qed.

Lemma paragraph_visible indent L par out : paragraph indent L par out -> visible out = visible par.
Proof.
  intros [text hang lines U _ W]. rewrite visible_join, (wrapped_visible W); [now apply untabbed_visible with hang|].
  change (c_nl :: blanks (indent + hang)) with ([c_nl] ++ blanks (indent + hang)). rewrite visible_app, visible_blanks. reflexivity.
Qed.

(** The pieces of a text without newlines have none. *)
Lemma without_app c a b : without c (a ++ b) <-> without c a /\ without c b.
Proof.
  unfold without. rewrite in_app_iff. tauto.
Qed.

Lemma without_cons c x b : without c (x :: b) <-> x <> c /\ without c b.
Proof. unfold without. cbn [In]. tauto. Qed.

Lemma trimmed_without c t a : trimmed t a -> without c t -> without c a.
Proof. intros [] Hn; auto. now apply without_cons in Hn. Qed.

Lemma wrapped_without c w w' text lines : wrapped w w' text lines -> without c text -> Forall (without c) lines.
Proof.
  intros H. induction H as [w w' line Hl|w w' line rest next lines Nl Nr B T Hw IH]; intros Wt.
  - auto.
  - apply without_app in Wt as [W1 W2]. constructor; auto. apply IH. eapply trimmed_without; eauto.
Qed.

Lemma untabbed_without c par text hang : untabbed par text hang -> without c par -> without c text.
Proof.
  intros [W|a b -> _ _] H; auto. apply without_app in H as [H1 H2]. apply without_cons in H2 as [_ H2]. now apply without_app.
Qed.

Lemma blanks_without_nl n : without c_nl (blanks n).
Proof. unfold blanks. intros I. apply repeat_spec in I. discriminate. Qed.

(** [join] with indentation is [join] of indented lines. *)
Lemma join_indent sep pad first others :
  join (sep ++ pad) (first :: others) = join sep (first :: map (fun l => pad ++ l) others).
Proof.
  revert first. induction others as [|l others IH]; intros first; auto.
  change (first ++ (sep ++ pad) ++ join (sep ++ pad) (l :: others) =
          first ++ sep ++ join sep ((pad ++ l) :: map (fun l => pad ++ l) others)).
  rewrite IH. f_equal. rewrite <- app_assoc. f_equal.
  destruct others; cbn [map join]; rewrite <- ?app_assoc; reflexivity.
Qed.

Lemma join_cons_app sep x first others : x ++ join sep (first :: others) = join sep ((x ++ first) :: others).
Proof. destruct others; cbn [join]; rewrite <- ?app_assoc; reflexivity. Qed.

Lemma paragraph_lines indent L par out :
  paragraph indent L par out -> without c_nl par ->
  exists first others, lines_of out (first :: others) /\ indent + len first <= L
    /\ Forall (fun l => len l <= L /\ exists l', l = blanks indent ++ l') others.
Proof.
  intros [text hang lines U [H1 H2] W] N. pose proof (untabbed_len U) as Hl.
  destruct (wrapped_fit W) as (first & others & -> & F1 & F2); [lia|].
  exists first, (map (fun l => blanks (indent + hang) ++ l) others). split; [split; [discriminate|split]|split].
  - change (c_nl :: blanks (indent + hang)) with ([c_nl] ++ blanks (indent + hang)). apply join_indent.
  - pose proof (wrapped_without W (untabbed_without U N)) as A. inversion A as [|? ? A1 A2]; subst.
    constructor; auto. rewrite Forall_map. eapply Forall_impl; [|exact A2]. intros l Hw.
    apply without_app. split; auto. apply blanks_without_nl.
  - lia.
  - rewrite Forall_map. eapply Forall_impl; [|exact F2]. cbn beta. intros l Hlen. split.
    + rewrite len_app, len_blanks by lia. lia.
    + exists (blanks hang ++ l). rewrite app_assoc. f_equal. unfold blanks.
      rewrite <- repeat_app. f_equal. lia.
Qed.
