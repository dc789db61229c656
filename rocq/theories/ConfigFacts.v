(** Facts about the config file parser. *)

From Coq Require Import List Ascii String NArith ZArith Bool Arith Lia Sorting.Sorted.
From Verif Require Import Base Errors Spec BaseFacts Values OptDesc Cmdline Parsers ConfigFile SpecConfig.
Import ListNotations.

Ltac assoc := repeat (cbn [app]; rewrite <- app_assoc); cbn [app]; reflexivity.

(** ** Trimming *)

Lemma ws_blank c : char_in c ws = true <-> blank_char c.
Proof.
  rewrite char_in_In. unfold ws, blank_char. simpl. intuition.
Qed.
Lemma ws_not_blank c : char_in c ws = false <-> ~ blank_char c.
Proof. rewrite <- ws_blank. destruct (char_in c ws); intuition discriminate. Qed.

Lemma first_not_blank b s :
  blank b -> find_first_not_of ws (b ++ s) = option_map (Nat.add (List.length b)) (find_first_not_of ws s).
Proof.
  induction 1 as [|c b Hc _ IH]; cbn [app find_first_not_of List.length].
  - now destruct (find_first_not_of ws s).
  - apply ws_blank in Hc. rewrite Hc, IH. now destruct (find_first_not_of ws s).
Qed.

Lemma last_not_blank_all b : blank b -> find_last_not_of ws b = None.
Proof.
  induction 1 as [|c b Hc _ IH]; cbn [find_last_not_of]; auto. rewrite IH. apply ws_blank in Hc. now rewrite Hc.
Qed.

Lemma last_not_blank s c b :
  ~ blank_char c -> blank b -> find_last_not_of ws (s ++ c :: b) = Some (List.length s).
Proof.
  intros Hc Hb. induction s as [|x s IH]; cbn [app find_last_not_of List.length].
  - rewrite last_not_blank_all by auto. apply ws_not_blank in Hc. now rewrite Hc.
  - now rewrite IH.
Qed.

Lemma trim_blank b : blank b -> trim_ws b = [].
Proof.
  intros Hb. unfold trim_ws. rewrite (last_not_blank_all b Hb).
  now destruct (find_first_not_of ws b).
Qed.

Lemma trim_middle b1 s b2 : blank b1 -> blank b2 -> trimmed s -> trim_ws (b1 ++ s ++ b2) = s.
Proof.
  intros H1 H2 [Hf Hl]. destruct s as [|c s].
  - apply trim_blank. apply Forall_app. now split.
  - destruct (exists_last (l := c :: s)) as (t & e & E); [discriminate|].
    unfold trim_ws. rewrite first_not_blank by auto.
    assert (E1 : find_first_not_of ws ((c :: s) ++ b2) = Some 0).
    { cbn [app find_first_not_of]. pose proof (Hf c s eq_refl) as Hc. apply ws_not_blank in Hc. now rewrite Hc. }
    rewrite E1. cbn [option_map]. rewrite Nat.add_0_r.
    replace (b1 ++ (c :: s) ++ b2) with ((b1 ++ t) ++ e :: b2)
      by (rewrite E, <- !app_assoc; reflexivity).
    rewrite last_not_blank; [|now apply (Hl t)|auto].
    replace (List.length (b1 ++ t) - List.length b1 + 1) with (List.length (c :: s)).
    + unfold substr_n. replace ((b1 ++ t) ++ e :: b2) with (b1 ++ (c :: s) ++ b2)
        by (rewrite E, <- !app_assoc; reflexivity).
      now rewrite skipn_app_exact, firstn_app_exact.
    + rewrite E, !app_length. simpl. lia.
Qed.

Lemma blank_dec c : {blank_char c} + {~ blank_char c}.
Proof.
  destruct (char_in c ws) eqn:E; [left; now apply ws_blank|right; now apply ws_not_blank].
Qed.

(** Every string is a trimmed one in blanks. *)
Lemma split_blank s : exists b t, s = b ++ t /\ blank b /\ (forall c u, t = c :: u -> ~ blank_char c).
Proof.
  induction s as [|c s (b & t & -> & Hb & Ht)].
  - exists [], []. repeat split; try constructor. discriminate.
  - destruct (blank_dec c) as [Hc|Hc].
    + exists (c :: b), t. repeat split; auto. now constructor.
    + exists [], (c :: b ++ t). repeat split; [constructor|]. intros c' u E. now injection E as <- _.
Qed.

Lemma blank_rev b : blank b -> blank (rev b).
Proof. unfold blank. rewrite !Forall_forall. intros H x Hx. apply H. now apply in_rev. Qed.

Lemma trim_exists s : exists b1 t b2, s = b1 ++ t ++ b2 /\ blank b1 /\ blank b2 /\ trimmed t.
Proof.
  destruct (split_blank s) as (b1 & t & -> & Hb1 & Ht).
  destruct (split_blank (rev t)) as (b2 & u & E & Hb2 & Hu).
  apply (f_equal (@rev _)) in E. rewrite rev_involutive, rev_app_distr in E.
  exists b1, (rev u), (rev b2). rewrite E. split; [reflexivity|]. split; [auto|].
  split; [now apply blank_rev|]. split.
  - intros c v Ev. apply (Ht c (v ++ rev b2)). rewrite E, Ev. reflexivity.
  - intros v c Ev. apply (Hu c (rev v)). apply (f_equal (@rev _)) in Ev.
    rewrite rev_involutive, rev_app_distr in Ev. exact Ev.
Qed.

(** ** Lines *)

Lemma hash_cut s cm : without c_hash s -> comment cm ->
  match find_char c_hash (s ++ cm) with Some n => substr_n (s ++ cm) 0 n | None => s ++ cm end = s.
Proof.
  intros Hs [->|[t ->]].
  - rewrite app_nil_r. now rewrite (proj2 (find_char_None c_hash s) Hs).
  - rewrite (find_char_app t Hs). unfold substr_n. simpl. apply firstn_app_exact.
Qed.

Lemma blank_no_hash b : blank b -> without c_hash b.
Proof.
  intros H Hi. unfold blank in H. rewrite Forall_forall in H.
  destruct (H _ Hi) as [E|[E|[E|E]]]; discriminate.
Qed.
Lemma blank_no_eq b : blank b -> without c_eq b.
Proof.
  intros H Hi. unfold blank in H. rewrite Forall_forall in H.
  destruct (H _ Hi) as [E|[E|[E|E]]]; discriminate.
Qed.

Lemma without_app c a b : without c (a ++ b) <-> without c a /\ without c b.
Proof. unfold without. rewrite in_app_iff. intuition. Qed.

Lemma strip_middle b1 s b2 cm :
  blank b1 -> blank b2 -> comment cm -> without c_hash s -> trimmed s ->
  strip_line (b1 ++ s ++ b2 ++ cm) = s.
Proof.
  intros H1 H2 Hc Hs Ht. unfold strip_line.
  replace (b1 ++ s ++ b2 ++ cm) with ((b1 ++ s ++ b2) ++ cm) by now rewrite <- !app_assoc.
  rewrite hash_cut; auto.
  - now apply trim_middle.
  - rewrite !without_app. auto using blank_no_hash.
Qed.

Lemma strip_exists line : exists b1 s b2 cm, line = b1 ++ s ++ b2 ++ cm
  /\ blank b1 /\ blank b2 /\ comment cm /\ without c_hash s /\ trimmed s /\ strip_line line = s.
Proof.
  assert (H : exists a cm, line = a ++ cm /\ comment cm /\ without c_hash a).
  { destruct (find_char c_hash line) as [n|] eqn:E.
    - apply find_char_Some in E. destruct E as (a & b & -> & Hw & _).
      exists a, (c_hash :: b). split; [reflexivity|]. split; [right; eauto|auto].
    - apply find_char_None in E. exists line, []. rewrite app_nil_r. split; [reflexivity|]. split; [now left|auto]. }
  destruct H as (a & cm & -> & Hc & Ha).
  destruct (trim_exists a) as (b1 & s & b2 & -> & Hb1 & Hb2 & Ht).
  rewrite !without_app in Ha. exists b1, s, b2, cm. rewrite <- !app_assoc. repeat split; try apply Ht; auto; try apply Ha.
  apply strip_middle; auto. apply Ha.
Qed.

Lemma is_section_spec s : s <> [] -> is_section s = true <-> bracketed s.
Proof.
  intros Hs. unfold is_section, bracketed. destruct s as [|b s]; [contradiction|].
  destruct (exists_last (l := b :: s)) as (t & e & E); [discriminate|].
  assert (Er : rev (b :: s) = e :: rev t) by now rewrite E, rev_app_distr.
  cbv beta iota. rewrite Er.
  rewrite andb_true_iff, !char_eqb_eq. split.
  - intros [-> ->]. destruct t as [|x t].
    + injection E as E1 _. discriminate.
    + injection E as <- ->. exists t. reflexivity.
  - intros [u Eu]. rewrite app_assoc in Eu. rewrite Eu in E.
    apply app_inj_tail in E. destruct E as [<- ->]. split; auto. now injection Eu as ->.
Qed.

Lemma bracket_trimmed s : trimmed ([c_lbr] ++ s ++ [c_rbr]).
Proof.
  split.
  - intros c t E. injection E as <- _. intros [E|[E|[E|E]]]; discriminate.
  - intros t c E. rewrite app_assoc in E. apply app_inj_tail in E. destruct E as [_ <-].
    intros [E|[E|[E|E]]]; discriminate.
Qed.

Lemma assign_trimmed n b2 b3 v :
  trimmed n -> trimmed v -> blank b2 -> blank b3 -> (n = [] -> b2 = []) -> (v = [] -> b3 = []) ->
  trimmed (n ++ b2 ++ [c_eq] ++ b3 ++ v).
Proof.
  intros [Hn _] [_ Hv] H2 H3 En Ev. split.
  - intros c t E. destruct n as [|x n].
    + rewrite En in E by auto. injection E as <- _. intros [E|[E|[E|E]]]; discriminate.
    + injection E as <- _. now apply (Hn x n).
  - intros t c E. destruct (exists_last (l := [c_eq] ++ b3 ++ v)) as (u & e & Eu); [discriminate|].
    rewrite Eu in E. rewrite !app_assoc in E. apply app_inj_tail in E. destruct E as [_ <-].
    destruct v as [|x v].
    + rewrite Ev, !app_nil_r in Eu by auto. apply (app_inj_tail [] u) in Eu. destruct Eu as [_ <-].
      intros [E|[E|[E|E]]]; discriminate.
    + destruct (exists_last (l := x :: v)) as (w & f & Ew); [discriminate|].
      rewrite Ew, !app_assoc in Eu. apply app_inj_tail in Eu. destruct Eu as [_ <-]. now apply (Hv w).
Qed.

Lemma strip_assign b1 n b2 b3 v b4 cm :
  blank b1 -> blank b2 -> blank b3 -> blank b4 -> trimmed n -> trimmed v ->
  without c_hash n -> without c_hash v -> comment cm ->
  exists b2' b3', blank b2' /\ blank b3' /\ strip_line (b1 ++ (n ++ b2 ++ [c_eq] ++ b3 ++ v) ++ b4 ++ cm)
    = n ++ b2' ++ [c_eq] ++ b3' ++ v
  /\ (bracketed (n ++ b2' ++ [c_eq] ++ b3' ++ v) -> bracketed (n ++ b2 ++ [c_eq] ++ b3 ++ v)).
Proof.
  intros H1 H2 H3 H4 Hn Hv Hnh Hvh Hc.
  assert (Hx : exists b1' b2' b3' b4', blank b1' /\ blank b2' /\ blank b3' /\ blank b4'
    /\ (n = [] -> b2' = []) /\ (v = [] -> b3' = [])
    /\ b1 ++ (n ++ b2 ++ [c_eq] ++ b3 ++ v) ++ b4 ++ cm
       = b1' ++ (n ++ b2' ++ [c_eq] ++ b3' ++ v) ++ b4' ++ cm
    /\ (bracketed (n ++ b2' ++ [c_eq] ++ b3' ++ v) -> bracketed (n ++ b2 ++ [c_eq] ++ b3 ++ v))).
  { assert (Hab : forall a b : str, blank a -> blank b -> blank (a ++ b)) by (intros; apply Forall_app; auto).
    destruct n as [|x n], v as [|y v].
    - exists (b1 ++ b2), [], [], (b3 ++ b4). repeat split; auto; try constructor.
      + rewrite app_nil_r. assoc.
      + intros [t E]. discriminate E.
    - exists (b1 ++ b2), [], b3, b4. repeat split; auto; try constructor; try discriminate.
      + assoc.
      + intros [t E]. discriminate E.
    - exists b1, b2, [], (b3 ++ b4). repeat split; auto; try constructor; try discriminate.
      + rewrite app_nil_r. assoc.
      + intros [t E]. rewrite app_nil_r, !app_assoc in E. apply app_inj_tail in E. destruct E as [_ E]. discriminate E.
    - exists b1, b2, b3, b4. repeat split; auto; discriminate. }
  destruct Hx as (b1' & b2' & b3' & b4' & G1 & G2 & G3 & G4 & E2 & E3 & -> & Hb).
  exists b2', b3'. repeat split; auto. apply strip_middle; auto.
  - rewrite !without_app. repeat split; auto using blank_no_hash. intros [E|[]]. discriminate.
  - now apply assign_trimmed.
Qed.

Lemma section_name_prefix s :
  (s = [] /\ section_prefix ([c_lbr] ++ s ++ [c_rbr]) = Undef UB_rbegin)
  \/ exists sec, section_name s sec /\ section_prefix ([c_lbr] ++ s ++ [c_rbr]) = Ok sec.
Proof.
  assert (E : substr_n ([c_lbr] ++ s ++ [c_rbr]) 1 (List.length ([c_lbr] ++ s ++ [c_rbr]) - 2) = s).
  { unfold substr_n. cbn [app skipn List.length]. rewrite app_length. cbn [List.length].
    replace (S (List.length s + 1) - 2) with (List.length s) by lia. apply firstn_app_exact. }
  unfold section_prefix. rewrite E. destruct s as [|x s].
  - left. split; reflexivity.
  - right. destruct (exists_last (l := x :: s)) as (t & e & Et); [discriminate|].
    rewrite Et, last_char_app. cbn [bind]. destruct (char_eqb_spec e c_dot) as [->|Hd].
    + exists (t ++ [c_dot]). split; [|reflexivity]. left. eauto.
    + exists ((t ++ [e]) ++ [c_dot]). split; [|reflexivity]. right. split; [|split; auto].
      * now destruct t.
      * intros [u Eu]. apply app_inj_tail in Eu. destruct Eu. contradiction.
Qed.

(** ** Reading one line *)

Lemma get_nothing al pr allow sec line rest :
  line_is line Nothing -> cf_get al pr allow sec (line :: rest) = cf_get al pr allow sec rest.
Proof.
  intros H. inversion H as [b cm Hb Hc E| | |]. subst line. cbn [cf_get].
  replace (strip_line (b ++ cm)) with (@nil char); [reflexivity|].
  symmetry. change (b ++ cm) with (b ++ [] ++ [] ++ cm). apply strip_middle; auto.
  - constructor.
  - intros [].
  - split; [discriminate|]. intros t c E. now destruct t.
Qed.

Lemma get_section al pr allow sec line rest s :
  line_is line (Section_ s) ->
  (s = [] /\ cf_get al pr allow sec (line :: rest) = Undef UB_rbegin)
  \/ exists sec', section_name s sec' /\ cf_get al pr allow sec (line :: rest) = cf_get al pr allow sec' rest.
Proof.
  intros H. inversion H as [|b1 s' b2 cm H1 H2 Hh Hc E Es| |]. subst s' line. cbn [cf_get].
  rewrite strip_middle; auto.
  - replace (is_empty ([c_lbr] ++ s ++ [c_rbr])) with false by reflexivity.
    replace (is_section ([c_lbr] ++ s ++ [c_rbr])) with true.
    + destruct (section_name_prefix s) as [[Hs ->]|(sec' & Hs & ->)]; [left|right; exists sec']; split; auto.
    + symmetry. apply is_section_spec; [discriminate|]. now exists s.
  - rewrite !without_app. repeat split; auto; intros [E|[]]; discriminate.
  - apply bracket_trimmed.
Qed.

Lemma get_assign al pr allow sec line rest n v :
  line_is line (Assign n v) ->
  cf_get al pr allow sec (line :: rest)
  = let registered := allowed_option al pr (sec ++ n) in
    if negb registered && negb allow then Throw (mk_unknown_option (sec ++ n))
    else Ok (Some (config_option (sec ++ n) v (negb registered)), mk_cf sec rest).
Proof.
  intros H. inversion H as [| |b1 n' b2 b3 v' b4 cm H1 H2 H3 H4 Hn Hv Hne Hnh Hvh Hc Hbr E [En Ev]|].
  subst n' v' line. cbn [cf_get].
  destruct (strip_assign b1 n b2 b3 v b4 cm) as (b2' & b3' & G2 & G3 & -> & Hb); auto.
  set (s := n ++ b2' ++ [c_eq] ++ b3' ++ v) in *.
  assert (Hs : s <> []) by (unfold s; destruct n; [destruct b2'|]; discriminate).
  apply is_empty_false in Hs as Hs'. rewrite Hs'.
  replace (is_section s) with false.
  - assert (Ef : find_char c_eq s = Some (List.length (n ++ b2'))).
    { unfold s. rewrite app_assoc. apply (find_char_app (b3' ++ v)). rewrite without_app. auto using blank_no_eq. }
    rewrite Ef. unfold substr_n, substr. cbn [skipn].
    replace s with ((n ++ b2') ++ ([c_eq] ++ b3' ++ v)) by (unfold s; now rewrite <- !app_assoc).
    rewrite firstn_app_exact.
    replace (List.length (n ++ b2') + 1) with (List.length ((n ++ b2') ++ [c_eq]))
      by now rewrite app_length.
    rewrite (app_assoc (n ++ b2') [c_eq]), skipn_app_exact.
    replace (trim_ws (n ++ b2')) with n by (symmetry; (apply (trim_middle []); auto; constructor)).
    replace (trim_ws (b3' ++ v)) with v; [reflexivity|].
    symmetry. rewrite <- (app_nil_r v) at 1. apply trim_middle; auto. constructor.
  - symmetry. apply not_true_is_false. rewrite is_section_spec by auto. auto.
Qed.

Lemma get_junk al pr allow sec line rest s :
  line_is line (Junk s) ->
  cf_get al pr allow sec (line :: rest) = Throw (mk_config_syntax s unrecognized_line).
Proof.
  intros H. inversion H as [| | |b1 s' b2 cm H1 H2 Ht Hs Hne Hh Hc Hbr E Es]. subst s' line.
  cbn [cf_get]. rewrite strip_middle by auto. apply is_empty_false in Hs as Hs'. rewrite Hs'.
  replace (is_section s) with false.
  - apply find_char_None in Hne. now rewrite Hne.
  - symmetry. apply not_true_is_false. now rewrite is_section_spec.
Qed.

Lemma line_total line : exists e, line_is line e.
Proof.
  destruct (strip_exists line) as (b1 & s & b2 & cm & -> & H1 & H2 & Hc & Hh & Ht & _).
  destruct s as [|x s].
  - exists Nothing. rewrite app_nil_l, app_assoc. constructor; auto. apply Forall_app. auto.
  - destruct (is_section (x :: s)) eqn:Es.
    + apply is_section_spec in Es; [|discriminate]. destruct Es as [t E]. rewrite E in *.
      exists (Section_ t). constructor; auto. rewrite !without_app in Hh. apply Hh.
    + assert (Hb : ~ bracketed (x :: s)) by (rewrite <- is_section_spec by discriminate; congruence).
      destruct (find_char c_eq (x :: s)) as [k|] eqn:Ek.
      * apply find_char_Some in Ek. destruct Ek as (a & b & E & Ha & _).
        destruct (trim_exists a) as (a1 & n & a2 & -> & A1 & A2 & An).
        destruct (trim_exists b) as (c1 & v & c2 & -> & C1 & C2 & Cv).
        exists (Assign n v).
        assert (a1 = []).
        { destruct a1 as [|y a1]; auto. injection E as <- _. inversion A1. destruct Ht as [Ht _].
          contradiction (Ht x s eq_refl). }
        subst a1. cbn [app] in *.
        assert (c2 = []).
        { destruct c2 as [|y c2]; auto. destruct (exists_last (l := y :: c2)) as (u & e & Eu); [discriminate|].
          rewrite Eu in *. destruct Ht as [_ Ht].
          replace ((n ++ a2) ++ c_eq :: c1 ++ v ++ u ++ [e]) with (((n ++ a2) ++ c_eq :: c1 ++ v ++ u) ++ [e]) in E.
          2: { rewrite <- !app_assoc. cbn [app]. rewrite <- !app_assoc. reflexivity. }
          contradiction (Ht _ _ E). apply Forall_app in C2. destruct C2 as [_ C2]. now inversion C2. }
        subst c2. rewrite app_nil_r in E. rewrite <- app_assoc in E.
        change (c_eq :: c1 ++ v) with ([c_eq] ++ c1 ++ v) in E.
        change (x :: s ++ b2 ++ cm) with ((x :: s) ++ b2 ++ cm). rewrite E in *.
        rewrite !without_app in Hh. rewrite without_app in Ha. constructor; auto; tauto.
      * apply find_char_None in Ek. exists (Junk (x :: s)). constructor; auto. discriminate.
Qed.

(** What is left of a line, read off its stripped form. *)
Definition says (s : str) (e : entry) : Prop :=
  match e with
  | Nothing => s = []
  | Section_ t => s = [c_lbr] ++ t ++ [c_rbr]
  | Assign n v => s <> [] /\ ~ bracketed s
      /\ exists k, find_char c_eq s = Some k /\ n = trim_ws (firstn k s) /\ v = trim_ws (skipn (k + 1) s)
  | Junk t => s <> [] /\ ~ bracketed s /\ find_char c_eq s = None /\ t = s
  end.

Lemma line_says line e : line_is line e -> says (strip_line line) e.
Proof.
  intros H. inversion H as [b cm Hb Hc E|b1 s b2 cm H1 H2 Hh Hc E
    |b1 n b2 b3 v b4 cm H1 H2 H3 H4 Hn Hv Hne Hnh Hvh Hc Hbr E
    |b1 s b2 cm H1 H2 Ht Hs Hne Hh Hc Hbr E]; subst; unfold says.
  - change (b ++ cm) with (b ++ [] ++ [] ++ cm). apply strip_middle; auto.
    + constructor.
    + intros [].
    + split; [discriminate|]. intros t c E. now destruct t.
  - apply strip_middle; auto; [|apply bracket_trimmed].
    rewrite !without_app. repeat split; auto; intros [E|[]]; discriminate.
  - destruct (strip_assign b1 n b2 b3 v b4 cm) as (b2' & b3' & G2 & G3 & -> & Hb); auto.
    set (s := n ++ b2' ++ [c_eq] ++ b3' ++ v) in *.
    split; [unfold s; destruct n; [destruct b2'|]; discriminate|]. split; [auto|].
    exists (List.length (n ++ b2')). split; [|split].
    + unfold s. rewrite app_assoc. apply (find_char_app (b3' ++ v)). rewrite without_app. auto using blank_no_eq.
    + replace s with ((n ++ b2') ++ ([c_eq] ++ b3' ++ v)) by (unfold s; now rewrite <- !app_assoc).
      rewrite firstn_app_exact. symmetry. (apply (trim_middle []); auto; constructor).
    + replace s with ((n ++ b2') ++ ([c_eq] ++ b3' ++ v)) by (unfold s; now rewrite <- !app_assoc).
      replace (List.length (n ++ b2') + 1) with (List.length ((n ++ b2') ++ [c_eq])) by now rewrite app_length.
      rewrite (app_assoc (n ++ b2') [c_eq]), skipn_app_exact.
      symmetry. rewrite <- (app_nil_r v) at 1. apply trim_middle; auto. constructor.
  - rewrite strip_middle by auto. repeat split; auto. now apply find_char_None.
Qed.

Lemma says_fun s e1 e2 : says s e1 -> says s e2 -> e1 = e2.
Proof.
  destruct e1 as [|t1|n1 v1|t1], e2 as [|t2|n2 v2|t2]; unfold says; auto.
  - intros ->. discriminate.
  - intros ->. intuition.
  - intros ->. intuition.
  - intros ->. discriminate.
  - intros -> E. rewrite !app_assoc in E. apply app_inj_tail in E. destruct E as [E _]. now injection E as ->.
  - intros -> (_ & H & _). contradiction H. now exists t1.
  - intros -> (_ & H & _). contradiction H. now exists t1.
  - intros (H & _) E. congruence.
  - intros (_ & H & _) E. contradiction H. now exists t2.
  - intros (_ & _ & k & E & -> & ->) (_ & _ & k' & E' & -> & ->). rewrite E in E'. now injection E' as ->.
  - intros (_ & _ & k & E & _) (_ & _ & E' & _). congruence.
  - intros (H & _) E. congruence.
  - intros (_ & H & _) E. contradiction H. now exists t2.
  - intros (_ & _ & E' & _) (_ & _ & k & E & _). congruence.
  - intros (_ & _ & _ & ->) (_ & _ & _ & ->). reflexivity.
Qed.

Lemma line_fun line e1 e2 : line_is line e1 -> line_is line e2 -> e1 = e2.
Proof. intros H1 H2. exact (says_fun _ _ _ (line_says _ _ H1) (line_says _ _ H2)). Qed.

(** ** Registered names *)

Definition antichain (P : list str) : Prop :=
  forall p q, In p P -> In q P -> prefix_of p q -> p = q.

Lemma str_lt_neq a b : str_lt a b -> a <> b.
Proof. intros H ->. exact (str_lt_irrefl H). Qed.

(** In a sorted antichain, the only candidate prefix of [s] is the last element before [s]. *)
Lemma pred_prefix P s p :
  ss_sorted P -> antichain P -> In p P -> prefix_of p s -> p <> s ->
  exists i before hi, ss_lower_bound s P = (i :: before, hi) /\ i = p.
Proof.
  intros Hs Ha Hp Hpre Hne. destruct (ss_lower_bound_spec s Hs) as (lo & hi & E & EP & Hlo & Hhi).
  assert (Hlt : str_lt p s) by (destruct (prefix_of_le Hpre); [contradiction|auto]).
  assert (Hplo : In p lo).
  { rewrite EP in Hp. apply in_app_or in Hp. destruct Hp as [|Hp]; auto.
    rewrite Forall_forall in Hhi. contradiction (Hhi p Hp). }
  destruct (exists_last (l := lo)) as (lo' & i & Elo); [intros ->; contradiction|].
  exists i, (rev lo'), hi. split; [rewrite E, Elo, rev_app_distr; reflexivity|].
  rewrite Elo in Hplo. apply in_app_or in Hplo. destruct Hplo as [Hp'|[->|[]]]; auto.
  assert (Hpi : str_lt p i).
  { unfold ss_sorted in Hs. rewrite EP, Elo, <- app_assoc in Hs. clear -Hs Hp'.
    induction lo' as [|x l IH]; [contradiction|]. cbn [app] in Hs. inversion Hs as [|? ? Hs' Hf]; subst.
    destruct Hp' as [->|Hp']; auto. rewrite Forall_forall in Hf. apply Hf. apply in_or_app. right. now left. }
  assert (His : str_lt i s).
  { rewrite Forall_forall in Hlo. apply Hlo. rewrite Elo. apply in_or_app. right. now left. }
  symmetry. apply Ha; auto.
  - rewrite EP, Elo. apply in_or_app. left. apply in_or_app. right. now left.
  - eapply prefix_between; eauto.
Qed.

(** If [s] is a prefix of some element, then of the first one that is not before [s]. *)
Lemma succ_prefix P s p :
  ss_sorted P -> In p P -> prefix_of s p ->
  exists i after before, ss_lower_bound s P = (before, i :: after) /\ prefix_of s i.
Proof.
  intros Hs Hp Hpre. destruct (ss_lower_bound_spec s Hs) as (lo & hi & E & EP & Hlo & Hhi).
  assert (Hphi : In p hi).
  { rewrite EP in Hp. apply in_app_or in Hp. destruct Hp as [Hp|]; auto. rewrite Forall_forall in Hlo.
    destruct (prefix_of_le Hpre) as [->|Hlt].
    - contradiction (str_lt_irrefl (Hlo p Hp)).
    - contradiction (str_lt_asym Hlt (Hlo p Hp)). }
  destruct hi as [|i hi]; [contradiction|]. exists i, hi, (rev lo). split; auto.
  destruct Hphi as [->|Hp']; auto.
  rewrite Forall_forall in Hhi. pose proof (Hhi i (or_introl eq_refl)) as Hi.
  assert (Hip : str_lt i p).
  { unfold ss_sorted in Hs. rewrite EP in Hs. clear -Hs Hp'. induction lo as [|x l IH].
    - inversion Hs as [|? ? _ Hf]; subst. rewrite Forall_forall in Hf. now apply Hf.
    - cbn [app] in Hs. inversion Hs. auto. }
  destruct (str_lt_total s i) as [Hsi|[->|Hsi]].
  - eapply prefix_between; eauto.
  - apply prefix_of_refl.
  - contradiction.
Qed.

Lemma allowed_option_spec al P n :
  ss_sorted P -> antichain P ->
  allowed_option al P n = true <-> In n al \/ exists p, In p P /\ prefix_of p n /\ n <> p.
Proof.
  intros Hs Ha. unfold allowed_option. destruct (ss_mem n al) eqn:E.
  - apply ss_mem_In in E. intuition.
  - assert (Hn : ~ In n al) by (rewrite <- ss_mem_In; congruence). split.
    + destruct (ss_lower_bound_spec n Hs) as (lo & hi & El & EP & Hlo & Hhi). rewrite El. cbn [fst].
      destruct (rev lo) as [|i before] eqn:Er; [discriminate|]. rewrite found_at_0_prefix. intros Hp. right.
      assert (Hi : In i lo) by (apply in_rev; rewrite Er; now left).
      exists i. split; [rewrite EP; apply in_or_app; auto|]. split; auto.
      rewrite Forall_forall in Hlo. intros ->. exact (str_lt_irrefl (Hlo _ Hi)).
    + intros [|(p & Hp & Hpre & Hne)]; [contradiction|].
      destruct (pred_prefix P n p Hs Ha Hp Hpre) as (i & before & hi & -> & ->); auto.
      cbn [fst]. now apply found_at_0_prefix.
Qed.

Lemma add_option_star P s :
  ss_sorted P -> antichain P ->
  (exists q, In q P /\ (prefix_of q s \/ prefix_of s q))
    /\ (exists msg, cf_add_option P (s ++ [c_star]) = Throw (plain_exn (po_error msg)))
  \/ (forall q, In q P -> ~ prefix_of q s /\ ~ prefix_of s q)
    /\ cf_add_option P (s ++ [c_star]) = Ok (ss_insert s P).
Proof.
  intros Hs Ha. unfold cf_add_option.
  replace (is_empty (s ++ [c_star])) with false by now destruct s.
  rewrite last_char_app. cbn [bind]. rewrite char_eqb_refl, removelast_last.
  destruct (ss_lower_bound_spec s Hs) as (lo & hi & El & EP & Hlo & Hhi).
  match goal with |- context [if ?a || ?b then _ else _] => destruct (a || b) eqn:E end.
  - left. split; [|eexists; reflexivity]. apply orb_true_iff in E. rewrite El in E. cbn [fst snd] in E.
    destruct E as [E|E].
    + destruct hi as [|i hi]; [discriminate|]. apply found_at_0_prefix in E. exists i.
      split; [rewrite EP; apply in_or_app; right; now left|auto].
    + destruct (rev lo) as [|i before] eqn:Er; [discriminate|]. apply found_at_0_prefix in E. exists i.
      split; [|auto]. rewrite EP. apply in_or_app. left. apply in_rev. rewrite Er. now left.
  - right. split; [|reflexivity]. apply orb_false_iff in E. destruct E as [E1 E2].
    assert (Hn2 : forall q, In q P -> ~ prefix_of s q).
    { intros q Hq Hp. destruct (succ_prefix P s q Hs Hq Hp) as (i & after & before & Eb & Hi).
      rewrite Eb in E1. cbn [snd] in E1. apply found_at_0_prefix in Hi. congruence. }
    intros q Hq. split; auto. intros Hp.
    destruct (pred_prefix P s q Hs Ha Hq Hp) as (i & before & after & Eb & ->).
    + intros ->. exact (Hn2 _ Hq (prefix_of_refl _)).
    + rewrite Eb in E2. cbn [fst] in E2. apply found_at_0_prefix in Hp. congruence.
Qed.

Lemma add_option_plain P n :
  n <> [] -> (forall s, n <> s ++ [c_star]) -> cf_add_option P n = Ok P.
Proof.
  intros Hn Hs. unfold cf_add_option. apply is_empty_false in Hn as Hn'. rewrite Hn'.
  destruct (last_char_nonempty Hn) as (t & c & E & ->). cbn [bind].
  destruct (char_eqb_spec c c_star) as [->|]; auto. contradiction (Hs t).
Qed.

Lemma star_dec (n : str) : {s | n = s ++ [c_star]} + {forall s, n <> s ++ [c_star]}.
Proof.
  destruct (list_eq_dec ascii_dec n []) as [->|Hn]; [right; now intros [|]|].
  destruct (exists_last Hn) as (t & c & ->). destruct (ascii_dec c c_star) as [->|Hc].
  - left. now exists t.
  - right. intros s E. apply app_inj_tail in E. destruct E. contradiction.
Qed.

Lemma add_options_spec al : forall P,
  ss_sorted P -> antichain P -> NoDup al -> Forall (fun n => n <> []) al ->
  (forall p, In p P -> ~ In (p ++ [c_star]) al) ->
  (forall p q, In p P \/ In (p ++ [c_star]) al -> In q P \/ In (q ++ [c_star]) al -> prefix_of p q -> p = q)
    /\ (exists P', cf_add_options P al = Ok P' /\ ss_sorted P' /\ antichain P'
        /\ forall p, In p P' <-> In p P \/ In (p ++ [c_star]) al)
  \/ (exists p q, (In p P \/ In (p ++ [c_star]) al) /\ (In q P \/ In (q ++ [c_star]) al)
        /\ prefix_of p q /\ p <> q)
    /\ (exists msg, cf_add_options P al = Throw (plain_exn (po_error msg))).
Proof.
  induction al as [|n al IH]; intros P Hs Ha Hd Hn Hdis.
  - left. split.
    + intros p q [Hp|[]] [Hq|[]]. now apply Ha.
    + exists P. repeat split; auto. simpl. intuition.
  - inversion Hd as [|? ? Hni Hd']; subst. inversion Hn as [|? ? Hn1 Hn']; subst.
    cbn [cf_add_options]. destruct (star_dec n) as [[s ->]|Hst].
    + destruct (add_option_star P s Hs Ha) as [[(q & Hq & Hc) [msg Em]]|[Hfree Em]].
      * right. rewrite Em. cbn [bind]. split; [|eauto].
        assert (q <> s) by (intros ->; apply (Hdis s Hq); now left).
        destruct Hc as [Hc|Hc]; [exists q, s|exists s, q]; repeat split; auto; simpl; auto.
      * rewrite Em. cbn [bind].
        assert (Ha' : antichain (ss_insert s P)).
        { intros p q Hp Hq Hpq. apply ss_insert_In in Hp, Hq.
          destruct Hp as [->|Hp], Hq as [->|Hq]; auto.
          - contradiction (proj2 (Hfree q Hq)).
          - contradiction (proj1 (Hfree p Hp)). }
        assert (Hdis' : forall p, In p (ss_insert s P) -> ~ In (p ++ [c_star]) al).
        { intros p Hp Hi. apply ss_insert_In in Hp. destruct Hp as [->|Hp]; auto.
          apply (Hdis p Hp). now right. }
        assert (Heq : forall p, In p (ss_insert s P) \/ In (p ++ [c_star]) al
                      <-> In p P \/ In (p ++ [c_star]) ((s ++ [c_star]) :: al)).
        { intros p. rewrite ss_insert_In. simpl. split.
          - intros [[->|]|]; auto.
          - intros [|[E|]]; auto. apply app_inj_tail in E. destruct E as [<- _]. auto. }
        destruct (IH _ (ss_insert_sorted s Hs) Ha' Hd' Hn' Hdis') as [[Hall (P' & E & S' & A' & I')]|[(p & q & Hp & Hq & Hpq) Hmsg]].
        -- left. split.
           ++ intros p q Hp Hq. apply Hall; now apply Heq.
           ++ exists P'. repeat split; auto; intros H; [apply Heq; now apply I'|apply I'; now apply Heq].
        -- right. split; auto. exists p, q. split; [now apply Heq|]. split; [now apply Heq|auto].
    + rewrite add_option_plain by auto. cbn [bind].
      assert (Heq : forall p, In p P \/ In (p ++ [c_star]) al <-> In p P \/ In (p ++ [c_star]) (n :: al)).
      { intros p. simpl. split; [intuition|]. intros [|[E|]]; auto. contradiction (Hst p). }
      destruct (IH P Hs Ha Hd' Hn') as [[Hall (P' & E & S' & A' & I')]|[(p & q & Hp & Hq & Hpq) Hmsg]].
      * intros p Hp Hi. apply (Hdis p Hp). now right.
      * left. split.
        -- intros p q Hp Hq. apply Hall; now apply Heq.
        -- exists P'. repeat split; auto; intros H; [apply Heq; now apply I'|apply I'; now apply Heq].
      * right. split; auto. exists p, q. split; [now apply Heq|]. split; [now apply Heq|auto].
Qed.

Lemma long_name_main d n : n <> [] -> od_long_name d = n <-> main_name d n.
Proof.
  intros Hn. unfold od_long_name, main_name. destruct (od_longs d) as [|x q].
  - split; [intros <-; contradiction|]. intros [q E]. discriminate.
  - split; [intros ->; eauto|]. intros [q' E]. now injection E.
Qed.

Lemma cf_allowed_spec ds : forall init,
  all_named ds ->
  exists al, cf_allowed ds init = Ok al
    /\ (ss_sorted init -> ss_sorted al)
    /\ (forall n, In n al <-> In n init \/ exists d, In d ds /\ main_name d n)
    /\ (Forall (fun n => n <> []) init -> Forall (fun n => n <> []) al).
Proof.
  induction ds as [|d ds IH]; intros init H.
  - exists init. repeat split; auto. intros [|(d & [] & _)]; auto.
  - inversion H as [|? ? (n & Hm & Hn) H']; subst. cbn [cf_allowed].
    pose proof (proj2 (long_name_main d n Hn) Hm) as En. apply is_empty_false in Hn as Hn'.
    rewrite En, Hn'. destruct (IH (ss_insert n init) H') as (al & E & S & I & N).
    exists al. split; [auto|]. split; [|split].
    + intros Hi. apply S. now apply ss_insert_sorted.
    + intros m. rewrite I, ss_insert_In. split.
      * intros [[->|]|(d' & Hd & Hm')].
        -- right. exists d. split; [now left|auto].
        -- now left.
        -- right. exists d'. split; [now right|auto].
      * intros [|(d' & [<-|Hd] & Hm')]; auto.
        -- left. left. destruct Hm as [q Eq], Hm' as [q' Eq']. rewrite Eq in Eq'. now injection Eq'.
        -- right. eauto.
    + intros Hi. apply N. rewrite Forall_forall in *. intros x Hx. apply ss_insert_In in Hx.
      destruct Hx as [->|]; auto.
Qed.

Lemma cf_allowed_unnamed ds : forall init,
  ~ all_named ds ->
  cf_allowed ds init = Throw (plain_exn (po_error
    $"abbreviated option names are not permitted in options configuration files")).
Proof.
  induction ds as [|d ds IH]; intros init H.
  - contradiction H. constructor.
  - cbn [cf_allowed]. destruct (is_empty (od_long_name d)) eqn:E; auto.
    apply IH. intros H'. apply H. constructor; auto. apply is_empty_false in E.
    exists (od_long_name d). split; auto. now apply long_name_main.
Qed.

Lemma sorted_nodup s : ss_sorted s -> NoDup s.
Proof.
  induction 1 as [|x l _ IH Hf]; constructor; auto. intros Hi. rewrite Forall_forall in Hf.
  exact (str_lt_irrefl (Hf _ Hi)).
Qed.

Lemma wildcard_In ds al p :
  (forall n, In n al <-> In n [] \/ exists d, In d ds /\ main_name d n) ->
  wildcard ds p <-> In p [] \/ In (p ++ [c_star]) al.
Proof. intros H. rewrite (H (p ++ [c_star])). unfold wildcard. simpl. intuition. Qed.

(** Building the parser. *)
Lemma build_spec ds :
  all_named ds ->
  compatible ds
    /\ (exists al P, (let* al := cf_allowed ds [] in let* P := cf_add_options [] al in Ok (al, P)) = Ok (al, P)
        /\ forall n, allowed_option al P n = true <-> accepts ds n)
  \/ (exists p q, wildcard ds p /\ wildcard ds q /\ prefix_of p q /\ p <> q)
    /\ (exists msg, (let* al := cf_allowed ds [] in let* P := cf_add_options [] al in Ok (al, P))
          = Throw (plain_exn (po_error msg))).
Proof.
  intros H. destruct (cf_allowed_spec ds [] H) as (al & E & S & I & N). rewrite E. cbn [bind].
  assert (Hnd : NoDup al) by (apply sorted_nodup, S; constructor).
  assert (Hne : Forall (fun n => n <> []) al) by (apply N; constructor).
  assert (S0 : ss_sorted []) by constructor.
  assert (A0 : antichain []) by (intros ? ? []).
  assert (D0 : forall p, In p [] -> ~ In (p ++ [c_star]) al) by (intros ? []).
  destruct (add_options_spec al [] S0 A0 Hnd Hne D0)
    as [[Hall (P & EP & SP & AP & IP)]|[(p & q & Hp & Hq & Hpq) [msg Em]]].
  - left. rewrite EP. cbn [bind]. split.
    + intros p q Hp Hq. apply Hall; now apply (wildcard_In ds).
    + exists al, P. split; auto. intros n. rewrite allowed_option_spec by auto. unfold accepts. rewrite I. simpl.
      split.
      * intros [[[]|]|(p & Hp & H1 & H2)]; auto. right. exists p. repeat split; auto.
        apply (wildcard_In ds al p I). now apply IP.
      * intros [|(p & Hp & H1 & H2)]; auto. right. exists p. repeat split; auto. apply IP.
        now apply (wildcard_In ds).
  - rewrite Em. cbn [bind]. right. split; eauto. exists p, q.
    split; [now apply (wildcard_In ds al p I)|]. split; [now apply (wildcard_In ds al q I)|auto].
Qed.

(** ** Reading a file *)

Lemma copy_spec ds al P allow :
  (forall n, allowed_option al P n = true <-> accepts ds n) ->
  forall lines es, Forall2 line_is lines es ->
  forall sec fuel, List.length lines < fuel ->
  exists r, reads ds allow sec es r /\ cf_copy fuel al P allow (mk_cf sec lines) = r.
Proof.
  intros Hacc lines es H. induction H as [|line e lines es He H IH]; intros sec fuel Hf.
  - destruct fuel as [|fuel]; [inversion Hf|]. exists (Ok []). split; [constructor|reflexivity].
  - destruct fuel as [|fuel]; [inversion Hf|]. cbn [List.length] in Hf. destruct e as [|s|n v|s].
    + destruct (IH sec (S fuel)) as (r & Hr & E); [lia|]. exists r. split; [now constructor|].
      rewrite <- E. cbn [cf_copy cf_prefix cf_lines]. now rewrite get_nothing.
    + destruct (get_section al P allow sec line lines s He) as [[-> E]|(sec' & Hsec & E)].
      * exists (Undef UB_rbegin). split; [constructor|]. cbn [cf_copy cf_prefix cf_lines]. now rewrite E.
      * destruct (IH sec' (S fuel)) as (r & Hr & E'); [lia|]. exists r. split; [econstructor; eauto|].
        rewrite <- E'. cbn [cf_copy cf_prefix cf_lines]. now rewrite E.
    + cbn [cf_copy cf_prefix cf_lines]. rewrite (get_assign al P allow sec line lines n v He). cbv zeta.
      destruct (allowed_option al P (sec ++ n)) eqn:Ea.
      * cbn [negb andb bind]. destruct (IH sec fuel) as (r & Hr & E'); [lia|]. rewrite E'.
        eexists. split; [apply rd_assign; [now apply Hacc|exact Hr]|reflexivity].
      * assert (Hna : ~ accepts ds (sec ++ n)) by (rewrite <- Hacc; congruence).
        destruct allow; cbn [negb andb bind].
        -- destruct (IH sec fuel) as (r & Hr & E'); [lia|]. rewrite E'.
           eexists. split; [apply rd_unregistered; [exact Hna|reflexivity|exact Hr]|reflexivity].
        -- eexists. split; [now apply rd_unknown|reflexivity].
    + cbn [cf_copy cf_prefix cf_lines]. rewrite (get_junk al P allow sec line lines s He).
      eexists. split; [apply rd_junk|reflexivity].
Qed.

Lemma section_name_fun s a b : section_name s a -> section_name s b -> a = b.
Proof. unfold section_name. intuition congruence. Qed.
Lemma section_name_nil a : ~ section_name [] a.
Proof. intros [[[t E] _]|[H _]]; [now destruct t|contradiction]. Qed.

Lemma reads_fun ds allow sec es r1 : reads ds allow sec es r1 -> forall r2, reads ds allow sec es r2 -> r1 = r2.
Proof.
  induction 1 as [sec|sec es r H IH|s sec' sec es r Hs H IH|sec es|sec n v es r Ha H IH
    |sec n v es r Ha Hal H IH|sec n v es Ha Hal|sec s es]; intros r2 H2;
    inversion H2; subst; auto; try contradiction; try congruence.
  - apply IH. match goal with H : section_name s ?x |- _ => now rewrite (section_name_fun s sec' x) end.
  - now apply section_name_nil in Hs.
  - match goal with H : section_name [] _ |- _ => now apply section_name_nil in H end.
  - f_equal. auto.
  - f_equal. auto.
Qed.

Lemma reads_app ds allow sec es1 r1 : reads ds allow sec es1 r1 -> forall os1, r1 = Ok os1 ->
  exists sec', forall es2 r2, reads ds allow sec' es2 r2 ->
    reads ds allow sec (es1 ++ es2) (let* os := r2 in Ok (os1 ++ os)).
Proof.
  induction 1 as [sec|sec es r H IH|s sec' sec es r Hs H IH|sec es|sec n v es r Ha H IH
    |sec n v es r Ha Hal H IH|sec n v es Ha Hal|sec s es]; intros os1 E; try discriminate.
  - injection E as <-. exists sec. intros es2 r2 H2. cbn [app].
    replace (let* os := r2 in Ok os) with r2 by now destruct r2. exact H2.
  - destruct (IH _ E) as [sec' IH']. exists sec'. intros es2 r2 H2. cbn [app]. constructor. auto.
  - destruct (IH _ E) as [sec'' IH']. exists sec''. intros es2 r2 H2. cbn [app]. econstructor; eauto.
  - destruct r as [os| | |]; try discriminate. injection E as <-.
    destruct (IH _ eq_refl) as [sec' IH']. exists sec'. intros es2 r2 H2. cbn [app].
    replace (let* os' := r2 in Ok (config_option (sec ++ n) v false :: os ++ os'))
      with (let* o := (let* os' := r2 in Ok (os ++ os')) in Ok (config_option (sec ++ n) v false :: o))
      by now destruct r2.
    apply rd_assign; auto.
  - destruct r as [os| | |]; try discriminate. injection E as <-.
    destruct (IH _ eq_refl) as [sec' IH']. exists sec'. intros es2 r2 H2. cbn [app].
    replace (let* os' := r2 in Ok (config_option (sec ++ n) v true :: os ++ os'))
      with (let* o := (let* os' := r2 in Ok (os ++ os')) in Ok (config_option (sec ++ n) v true :: o))
      by now destruct r2.
    apply rd_unregistered; auto.
Qed.

(** Where reading stops, if it does. *)
Lemma reads_stops ds allow sec es r : reads ds allow sec es r ->
  (exists os, r = Ok os)
  \/ exists es1 e es2 os1, es = es1 ++ e :: es2 /\ reads ds allow sec es1 (Ok os1)
     /\ ((e = Section_ [] /\ r = Undef UB_rbegin)
         \/ (exists s, e = Junk s /\ r = Throw (mk_config_syntax s unrecognized_line))
         \/ (exists n v sec', e = Assign n v /\ allow = false /\ r = Throw (mk_unknown_option (sec' ++ n)))).
Proof.
  induction 1 as [sec|sec es r H IH|s sec' sec es r Hs H IH|sec es|sec n v es r Ha H IH
    |sec n v es r Ha Hal H IH|sec n v es Ha Hal|sec s es].
  - left. eauto.
  - destruct IH as [[os ->]|(es1 & e & es2 & os1 & -> & Hr & Hc)]; [left; eauto|].
    right. exists (Nothing :: es1), e, es2, os1. repeat split; auto. now constructor.
  - destruct IH as [[os ->]|(es1 & e & es2 & os1 & -> & Hr & Hc)]; [left; eauto|].
    right. exists (Section_ s :: es1), e, es2, os1. repeat split; auto. econstructor; eauto.
  - right. exists [], (Section_ []), es, []. split; [auto|]. split; [constructor|auto].
  - destruct IH as [[os ->]|(es1 & e & es2 & os1 & -> & Hr & Hc)]; [left; cbn; eauto|].
    right. exists (Assign n v :: es1), e, es2, (config_option (sec ++ n) v false :: os1). repeat split.
    + exact (rd_assign ds allow sec n v es1 (Ok os1) Ha Hr).
    + destruct Hc as [[-> ->]|[(s & -> & ->)|(n' & v' & sec' & -> & -> & ->)]]; [left; auto|right; left; eauto|right; right].
      exists n', v', sec'. auto.
  - destruct IH as [[os ->]|(es1 & e & es2 & os1 & -> & Hr & Hc)]; [left; cbn; eauto|].
    right. exists (Assign n v :: es1), e, es2, (config_option (sec ++ n) v true :: os1). repeat split.
    + exact (rd_unregistered ds allow sec n v es1 (Ok os1) Ha Hal Hr).
    + destruct Hc as [[-> ->]|[(s & -> & ->)|(n' & v' & sec' & -> & -> & ->)]]; [left; auto|right; left; eauto|right; right].
      exists n', v', sec'. auto.
  - right. exists [], (Assign n v), es, []. split; [auto|]. split; [constructor|]. right. right.
    exists n, v, sec. auto.
  - right. exists [], (Junk s), es, []. split; [auto|]. split; [constructor|]. right. left. eauto.
Qed.

(** ** Lines of a file *)

Lemma getline_line d cur l rest :
  without d l -> getline_aux d cur (l ++ d :: rest) = (rev cur ++ l) :: getline_aux d [] rest.
Proof.
  revert cur. induction l as [|x l IH]; intros cur Hl; cbn [app getline_aux].
  - now rewrite char_eqb_refl, app_nil_r.
  - destruct (char_eqb_spec x d) as [->|Hx]; [contradiction Hl; now left|].
    rewrite IH; [|intros Hi; apply Hl; now right]. cbn [rev]. now rewrite <- app_assoc.
Qed.

Lemma getline_last d cur l :
  without d l -> getline_aux d cur l = match rev cur ++ l with [] => [] | t => [t] end.
Proof.
  revert cur. induction l as [|x l IH]; intros cur Hl; cbn [getline_aux].
  - rewrite app_nil_r. destruct cur as [|y cur]; auto.
    destruct (rev (y :: cur)) eqn:E; auto. apply (f_equal (@List.length _)) in E. rewrite rev_length in E. discriminate.
  - destruct (char_eqb_spec x d) as [->|Hx]; [contradiction Hl; now left|].
    rewrite IH; [|intros Hi; apply Hl; now right]. cbn [rev]. now rewrite <- app_assoc.
Qed.

Lemma getline_unlines ls rest :
  no_newlines ls -> getline_all c_nl (unlines ls ++ rest) = ls ++ getline_all c_nl rest.
Proof.
  unfold getline_all, unlines. induction 1 as [|l ls Hl _ IH]; auto.
  cbn [map List.concat]. rewrite <- !app_assoc. cbn [app]. rewrite getline_line by auto. cbn [rev app]. now rewrite IH.
Qed.

Lemma lines_of_getline content ls : lines_of content ls -> getline_all c_nl content = ls.
Proof.
  intros [Hn [->|(ls' & l & -> & Hl & ->)]].
  - rewrite <- (app_nil_r (unlines ls)), getline_unlines by auto. apply app_nil_r.
  - apply Forall_app in Hn. destruct Hn as [Hn Hn']. inversion Hn' as [|? ? Hw _]; subst.
    rewrite getline_unlines by auto. f_equal. unfold getline_all. rewrite getline_last by auto.
    now destruct l.
Qed.

Lemma lines_of_total content : lines_of content (getline_all c_nl content).
Proof.
  assert (H : forall n s, List.length s <= n -> lines_of s (getline_all c_nl s)).
  { induction n as [|n IH]; intros s Hs.
    - destruct s; [|inversion Hs]. split; [constructor|now left].
    - destruct (find_char c_nl s) as [k|] eqn:E.
      + apply find_char_Some in E. destruct E as (a & b & -> & Ha & _).
        assert (Hb : lines_of b (getline_all c_nl b)).
        { apply IH. rewrite app_length in Hs. cbn [List.length] in Hs. lia. }
        unfold getline_all. rewrite getline_line by auto. cbn [rev app].
        destruct Hb as [Hn [Hb|(ls' & l & E & Hl & Hb)]]; (split; [now constructor|]).
        * left. unfold unlines. cbn [map List.concat]. unfold getline_all, unlines in Hb. rewrite Hb at 1.
          now rewrite <- app_assoc.
        * right. unfold getline_all in E. exists (a :: ls'), l. rewrite E. split; [reflexivity|]. split; [auto|].
          unfold unlines in *. cbn [map List.concat]. rewrite Hb at 1. now rewrite <- !app_assoc.
      + apply find_char_None in E. unfold getline_all. rewrite getline_last by auto. cbn [rev app].
        destruct s as [|x s]; [split; [constructor|now left]|]. split; [repeat constructor; auto|].
        right. exists [], (x :: s). repeat split; auto. discriminate. }
  now apply (H (List.length content)).
Qed.

(** ** The whole parser *)

Lemma config_reads ds allow content ls es :
  all_named ds -> compatible ds -> lines_of content ls -> Forall2 line_is ls es ->
  reads ds allow [] es (config ds allow content).
Proof.
  intros Hn Hc Hl He. apply lines_of_getline in Hl.
  destruct (build_spec ds Hn) as [[_ (al & P & E & Hacc)]|[(p & q & Hp & Hq & Hpq & Hne) _]].
  - unfold config, parse_config_file. rewrite Hl.
    destruct (cf_allowed ds []) as [al'| | |]; try discriminate. cbn [bind] in *.
    destruct (cf_add_options [] al') as [P'| | |]; try discriminate. cbn [bind] in *. injection E as -> ->.
    destruct (copy_spec ds al P allow Hacc ls es He [] (S (List.length ls))) as (r & Hr & ->); [lia|].
    now destruct r.
  - contradiction Hne. now apply Hc.
Qed.

Lemma parse_config_shape content ds allow :
  parse_config_file content ds allow = let* os := config ds allow content in Ok (mk_parsed os (Some ds) 0).
Proof.
  unfold config, parse_config_file. destruct (cf_allowed ds []) as [al| | |]; auto. cbn [bind].
  destruct (cf_add_options [] al); auto. cbn [bind]. destruct (cf_copy _ _ _ _ _); auto.
Qed.

Lemma lines_are ls : exists es, Forall2 line_is ls es.
Proof.
  induction ls as [|l ls [es IH]]; [exists []; constructor|].
  destruct (line_total l) as [e He]. exists (e :: es). now constructor.
Qed.

Lemma unlines_lines ls : no_newlines ls -> lines_of (unlines ls) ls.
Proof. intros H. split; auto. Qed.

Lemma config_lines ds allow content ls : lines_of content ls -> config ds allow content = config ds allow (unlines ls).
Proof.
  intros H. unfold config, parse_config_file. rewrite (lines_of_getline _ _ H).
  now rewrite (lines_of_getline _ _ (unlines_lines ls (proj1 H))).
Qed.

Lemma config_conflict content ds allow :
  all_named ds -> ~ compatible ds ->
  exists msg, parse_config_file content ds allow = Throw (plain_exn (po_error msg)).
Proof.
  intros Hn Hc. destruct (build_spec ds Hn) as [[H _]|[_ [msg E]]]; [contradiction|].
  exists msg. unfold parse_config_file. destruct (cf_allowed ds []) as [al| | |]; try discriminate; cbn [bind] in *.
  - destruct (cf_add_options [] al); try discriminate; cbn [bind] in *. now injection E as ->.
  - now injection E as ->.
Qed.

Lemma config_unnamed content ds allow :
  ~ all_named ds ->
  parse_config_file content ds allow = Throw (plain_exn (po_error
    $"abbreviated option names are not permitted in options configuration files")).
Proof. intros H. unfold parse_config_file. now rewrite cf_allowed_unnamed. Qed.

(** ** Corollaries *)

Lemma assign_line_is n v :
  trimmed n -> trimmed v -> without c_eq n -> without c_hash n -> without c_hash v ->
  ~ bracketed (n ++ [c_eq] ++ v) -> line_is (n ++ [c_eq] ++ v) (Assign n v).
Proof.
  intros. replace (n ++ [c_eq] ++ v) with ([] ++ (n ++ [] ++ [c_eq] ++ [] ++ v) ++ [] ++ [])
    by (cbn [app]; now rewrite app_nil_r).
  constructor; auto; try (now left); constructor.
Qed.

Lemma round_trip_lemma ds allow pairs :
  all_named ds -> compatible ds ->
  Forall (fun nv => accepts ds (fst nv) /\ trimmed (fst nv) /\ trimmed (snd nv)
    /\ without c_eq (fst nv) /\ without c_hash (fst nv) /\ without c_nl (fst nv)
    /\ without c_hash (snd nv) /\ without c_nl (snd nv)
    /\ ~ bracketed (fst nv ++ [c_eq] ++ snd nv)) pairs ->
  config ds allow (unlines (map (fun nv => fst nv ++ [c_eq] ++ snd nv) pairs))
  = Ok (map (fun nv => config_option (fst nv) (snd nv) false) pairs).
Proof.
  intros Hn Hc H.
  assert (Hl : no_newlines (map (fun nv => fst nv ++ [c_eq] ++ snd nv) pairs)).
  { apply Forall_map. eapply Forall_impl; [|exact H]. intros nv (_ & _ & _ & _ & _ & H1 & _ & H2 & _).
    cbn beta. rewrite !without_app. repeat split; auto. intros [E|[]]. discriminate. }
  assert (He : Forall2 line_is (map (fun nv => fst nv ++ [c_eq] ++ snd nv) pairs)
                 (map (fun nv => Assign (fst nv) (snd nv)) pairs)).
  { clear -H. induction H as [|nv pairs (_ & H1 & H2 & H3 & H4 & _ & H5 & _ & H6) _ IH]; cbn [map]; constructor; auto.
    now apply assign_line_is. }
  eapply reads_fun; [eapply config_reads; eauto using unlines_lines|].
  clear -H. induction H as [|nv pairs (Ha & _) _ IH]; cbn [map]; [constructor|].
  exact (rd_assign ds allow [] (fst nv) (snd nv) _ (Ok _) Ha IH).
Qed.

Lemma reads_cons ds allow e es es' sec r :
  (forall sec r, reads ds allow sec es r -> reads ds allow sec es' r) ->
  reads ds allow sec (e :: es) r -> reads ds allow sec (e :: es') r.
Proof.
  intros Hx H. inversion H; subst.
  - apply rd_nothing. auto.
  - eapply rd_section; eauto.
  - apply rd_no_section.
  - apply rd_assign; auto.
  - apply rd_unregistered; auto.
  - apply rd_unknown; auto.
  - apply rd_junk.
Qed.

Lemma same_file_lemma ds allow ls ls' :
  all_named ds -> compatible ds -> no_newlines ls -> no_newlines ls' -> same_file ls ls' ->
  config ds allow (unlines ls) = config ds allow (unlines ls').
Proof.
  intros Hn Hc H1 H2 Hs.
  assert (Hx : exists es es', Forall2 line_is ls es /\ Forall2 line_is ls' es'
    /\ forall sec r, reads ds allow sec es r -> reads ds allow sec es' r).
  { clear -Hs. induction Hs as [|l l' e ls ls' He He' _ (es & es' & F & F' & IH)
      |l ls ls' He _ (es & es' & F & F' & IH)|l ls ls' He _ (es & es' & F & F' & IH)].
    - exists [], []. split; [constructor|]. split; [constructor|auto].
    - exists (e :: es), (e :: es'). split; [now constructor|]. split; [now constructor|].
      intros sec r. now apply reads_cons.
    - exists (Nothing :: es), es'. split; [now constructor|]. split; [auto|].
      intros sec r H. inversion H; subst; auto.
    - exists es, (Nothing :: es'). split; [auto|]. split; [now constructor|]. intros. constructor. auto. }
  destruct Hx as (es & es' & F & F' & Hr).
  pose proof (config_reads ds allow _ _ _ Hn Hc (unlines_lines _ H1) F) as R.
  pose proof (config_reads ds allow _ _ _ Hn Hc (unlines_lines _ H2) F') as R'.
  apply Hr in R. exact (reads_fun _ _ _ _ _ R _ R').
Qed.

Lemma padding_lemma b1 l b2 cm e :
  blank b1 -> blank b2 -> comment cm -> line_is l e -> line_is (b1 ++ l ++ b2 ++ cm) e.
Proof.
  intros H1 H2 Hc He.
  assert (Hab : forall a b : str, blank a -> blank b -> blank (a ++ b)) by (intros; apply Forall_app; auto).
  (* the end of a line: blanks and a comment *)
  assert (Hend : forall b cm0, blank b -> comment cm0 ->
    exists b' cm', blank b' /\ comment cm' /\ b ++ cm0 ++ b2 ++ cm = b' ++ cm').
  { intros b cm0 Hb [->|[t ->]].
    - exists (b ++ b2), cm. repeat split; auto. assoc.
    - exists b, (c_hash :: t ++ b2 ++ cm). repeat split; auto. right. eauto. }
  destruct He as [b cm0 Hb Hc0|a1 s a2 cm0 A1 A2 Hh Hc0
    |a1 n a2 a3 v a4 cm0 A1 A2 A3 A4 Hn Hv Hne Hnh Hvh Hc0 Hbr
    |a1 s a2 cm0 A1 A2 Ht Hs Hne Hh Hc0 Hbr].
  - destruct (Hend b cm0 Hb Hc0) as (b' & cm' & B & C & E). rewrite <- app_assoc, E, app_assoc.
    constructor; auto.
  - destruct (Hend a2 cm0 A2 Hc0) as (b' & cm' & B & C & E).
    replace (b1 ++ (a1 ++ ([c_lbr] ++ s ++ [c_rbr]) ++ a2 ++ cm0) ++ b2 ++ cm)
      with ((b1 ++ a1) ++ ([c_lbr] ++ s ++ [c_rbr]) ++ a2 ++ cm0 ++ b2 ++ cm) by (symmetry; assoc).
    rewrite E. constructor; auto.
  - destruct (Hend a4 cm0 A4 Hc0) as (b' & cm' & B & C & E).
    replace (b1 ++ (a1 ++ (n ++ a2 ++ [c_eq] ++ a3 ++ v) ++ a4 ++ cm0) ++ b2 ++ cm)
      with ((b1 ++ a1) ++ (n ++ a2 ++ [c_eq] ++ a3 ++ v) ++ a4 ++ cm0 ++ b2 ++ cm) by (symmetry; assoc).
    rewrite E. constructor; auto.
  - destruct (Hend a2 cm0 A2 Hc0) as (b' & cm' & B & C & E).
    replace (b1 ++ (a1 ++ s ++ a2 ++ cm0) ++ b2 ++ cm)
      with ((b1 ++ a1) ++ s ++ a2 ++ cm0 ++ b2 ++ cm) by (symmetry; assoc).
    rewrite E. constructor; auto.
Qed.

Lemma section_lemma ds allow pre l s sec body body' post :
  all_named ds -> compatible ds ->
  no_newlines (pre ++ l :: body ++ post) -> no_newlines body' ->
  Forall no_section pre -> line_is l (Section_ s) -> section_name s sec ->
  Forall2 (prefixed sec) body body' -> starts_section post ->
  config ds allow (unlines (pre ++ l :: body ++ post)) = config ds allow (unlines (pre ++ body' ++ post)).
Proof.
  intros Hn Hc H1 H2 Hpre Hl Hs Hb Hpost.
  destruct (lines_are pre) as [es0 F0]. destruct (lines_are post) as [es2 F2].
  assert (Hx : exists es es', Forall2 line_is body es /\ Forall2 line_is body' es'
    /\ forall r, reads ds allow sec (es ++ es2) r -> reads ds allow [] (es' ++ es2) r).
  { clear -Hb Hpost F2. induction Hb as [|l l' body body' Hp _ (es & es' & F & F' & IH)].
    - exists [], []. split; [constructor|]. split; [constructor|]. cbn [app]. intros r H.
      destruct F2 as [|p e post es2 He F2]; [inversion H; constructor|].
      destruct Hpost as [Hpost|(p' & q & s & E & Hsec)]; [discriminate|]. injection E as -> ->.
      pose proof (line_fun _ _ _ He Hsec). subst e. inversion H; subst; [eapply rd_section; eauto|apply rd_no_section].
    - destruct Hp as [l l' n v P1 P2|l l' P1 P2|l l' s P1 P2].
      + exists (Assign n v :: es), (Assign (sec ++ n) v :: es'). split; [now constructor|]. split; [now constructor|].
        intros r H. inversion H; subst; cbn [app].
        * apply (rd_assign ds allow [] (sec ++ n)); auto.
        * apply (rd_unregistered ds true [] (sec ++ n)); auto.
        * apply (rd_unknown ds false [] (sec ++ n)); auto.
      + exists (Nothing :: es), (Nothing :: es'). split; [now constructor|]. split; [now constructor|].
        intros r H. inversion H; subst. constructor. auto.
      + exists (Junk s :: es), (Junk s :: es'). split; [now constructor|]. split; [now constructor|].
        intros r H. inversion H; subst. constructor. }
  destruct Hx as (es & es' & F & F' & Hr).
  assert (Hr0 : forall r, reads ds allow [] (es0 ++ Section_ s :: es ++ es2) r ->
                          reads ds allow [] (es0 ++ es' ++ es2) r).
  { clear -F0 Hpre Hr Hs. induction F0 as [|p e pre es0 He F0 IH]; cbn [app]; intros r H.
    - inversion H; subst; [|now apply section_name_nil in Hs].
      apply Hr. match goal with G : section_name s ?x |- _ => now rewrite (section_name_fun s sec x) end.
    - inversion Hpre; subst. destruct e as [|t|n v|t].
      + inversion H; subst. constructor; auto.
      + exfalso. match goal with G : no_section p |- _ => exact (G t He) end.
      + inversion H; subst; [apply rd_assign|apply rd_unregistered|apply rd_unknown]; auto.
      + inversion H; subst. apply rd_junk. }
  apply Forall_app in H1. destruct H1 as [N0 N1]. inversion N1 as [|? ? Nl N1']; subst.
  apply Forall_app in N1'. destruct N1' as [Nb Np].
  assert (R : reads ds allow [] (es0 ++ Section_ s :: es ++ es2) (config ds allow (unlines (pre ++ l :: body ++ post)))).
  { eapply config_reads; eauto.
    - apply unlines_lines. apply Forall_app. split; auto.
    - apply Forall2_app; auto. constructor; auto. now apply Forall2_app. }
  assert (R' : reads ds allow [] (es0 ++ es' ++ es2) (config ds allow (unlines (pre ++ body' ++ post)))).
  { eapply config_reads; eauto.
    - apply unlines_lines. apply Forall_app. split; auto. apply Forall_app. auto.
    - apply Forall2_app; auto. now apply Forall2_app. }
  exact (reads_fun _ _ _ _ _ (Hr0 _ R) _ R').
Qed.

Lemma Forall2_split {A B} (R : A -> B -> Prop) l m1 x m2 :
  Forall2 R l (m1 ++ x :: m2) ->
  exists l1 y l2, l = l1 ++ y :: l2 /\ Forall2 R l1 m1 /\ R y x /\ Forall2 R l2 m2.
Proof.
  intros H. apply Forall2_app_inv_r in H. destruct H as (l1 & l' & H1 & H2 & ->).
  inversion H2 as [|y ? l2 ? Hy H2']; subst. exists l1, y, l2. auto.
Qed.

Lemma stops_lemma ds allow ls r :
  all_named ds -> compatible ds -> no_newlines ls -> config ds allow (unlines ls) = r ->
  (exists os, r = Ok os)
  \/ exists ls1 l ls2 os1, ls = ls1 ++ l :: ls2 /\ config ds allow (unlines ls1) = Ok os1
     /\ ((line_is l (Section_ []) /\ r = Undef UB_rbegin)
         \/ (exists s, line_is l (Junk s) /\ r = Throw (mk_config_syntax s unrecognized_line))
         \/ (exists n v sec, line_is l (Assign n v) /\ allow = false /\ r = Throw (mk_unknown_option (sec ++ n)))).
Proof.
  intros Hn Hc Hl <-. destruct (lines_are ls) as [es F].
  pose proof (config_reads ds allow _ _ _ Hn Hc (unlines_lines _ Hl) F) as R.
  destruct (reads_stops _ _ _ _ _ R) as [H|(es1 & e & es2 & os1 & -> & R1 & H)]; [now left|right].
  apply Forall2_split in F. destruct F as (ls1 & l & ls2 & -> & F1 & Fe & F2).
  apply Forall_app in Hl. destruct Hl as [Hl1 _].
  exists ls1, l, ls2, os1. split; [reflexivity|]. split.
  - pose proof (config_reads ds allow _ _ _ Hn Hc (unlines_lines _ Hl1) F1) as R'.
    exact (reads_fun _ _ _ _ _ R' _ R1).
  - destruct H as [[-> H]|[(s & -> & H)|(n & v & sec & -> & H)]]; [auto|right; left; eauto|right; right; eauto 6].
Qed.

Lemma stopping_lemma ds allow ls1 l ls2 os1 :
  all_named ds -> compatible ds -> no_newlines (ls1 ++ l :: ls2) -> config ds allow (unlines ls1) = Ok os1 ->
  (line_is l (Section_ []) -> config ds allow (unlines (ls1 ++ l :: ls2)) = Undef UB_rbegin)
  /\ (forall s, line_is l (Junk s) ->
       config ds allow (unlines (ls1 ++ l :: ls2)) = Throw (mk_config_syntax s unrecognized_line)).
Proof.
  intros Hn Hc Hl H1. destruct (lines_are ls1) as [es1 F1]. destruct (lines_are ls2) as [es2 F2].
  assert (Hl1 : no_newlines ls1) by (apply Forall_app in Hl; apply Hl).
  pose proof (config_reads ds allow _ _ _ Hn Hc (unlines_lines _ Hl1) F1) as R1. rewrite H1 in R1.
  destruct (reads_app _ _ _ _ _ R1 _ eq_refl) as [sec Happ].
  assert (R : forall e, line_is l e ->
    reads ds allow [] (es1 ++ e :: es2) (config ds allow (unlines (ls1 ++ l :: ls2)))).
  { intros e He. eapply config_reads; eauto using unlines_lines. apply Forall2_app; auto. }
  split.
  - intros He. apply (reads_fun _ _ _ _ _ (R _ He)). apply (Happ _ (Undef UB_rbegin)). constructor.
  - intros s He. apply (reads_fun _ _ _ _ _ (R _ He)). apply (Happ _ (Throw _)). constructor.
Qed.

(** ** Environment *)

Lemma env_split_var n v : without c_eq n -> env_split (n ++ [c_eq] ++ v) = Ok (n, v).
Proof.
  intros H. unfold env_split.
  change (find_char c_eq (n ++ [c_eq] ++ v)) with (find_char c_eq (n ++ c_eq :: v)).
  rewrite (find_char_app v H). unfold substr_n, substr. cbn [skipn]. rewrite firstn_app_exact.
  replace (List.length n + 1) with (List.length (n ++ [c_eq])) by now rewrite app_length.
  now rewrite app_assoc, skipn_app_exact.
Qed.

Lemma environment_lemma ds vars g :
  Forall (fun nv => without c_eq (fst nv)) vars ->
  parse_environment (environ vars) ds (fun n => Ok (g n))
  = Ok (mk_parsed (map (fun nv => env_option (g (fst nv)) (snd nv))
                     (filter (fun nv => negb (is_empty (g (fst nv)))) vars)) (Some ds) 0).
Proof.
  intros H. unfold parse_environment.
  assert (E : parse_environment_loop (environ vars) (fun n => Ok (g n))
    = Ok (map (fun nv => env_option (g (fst nv)) (snd nv))
                     (filter (fun nv => negb (is_empty (g (fst nv)))) vars))).
  { induction H as [|[n v] vars Hn _ IH]; auto. cbn [environ map parse_environment_loop fst snd] in *.
    rewrite env_split_var by auto. cbn [bind fst snd]. change (map _ vars) with (environ vars). rewrite IH.
    cbn [bind filter fst snd]. now destruct (is_empty (g n)). }
  now rewrite E.
Qed.

Lemma env_prefix_lemma ds vars prefix :
  Forall (fun nv => without c_eq (fst nv) /\ (prefix_of prefix (fst nv) -> ascii7 (fst nv))) vars ->
  exists os, env_options prefix vars os
    /\ parse_environment_prefix (environ vars) ds prefix = Ok (mk_parsed os (Some ds) 0).
Proof.
  intros H. unfold parse_environment_prefix, parse_environment.
  assert (E : exists os, env_options prefix vars os
    /\ parse_environment_loop (environ vars) (prefix_name_mapper prefix) = Ok os).
  { induction H as [|[n v] vars [Hn Ha] _ (os & IH & E)]; [exists []; split; [constructor|auto]|].
    cbn [environ map parse_environment_loop fst snd] in *. rewrite env_split_var by auto.
    cbn [bind fst snd]. change (map _ vars) with (environ vars). rewrite E.
    unfold prefix_name_mapper at 1. destruct (found_at_0 prefix n) eqn:Ef.
    - apply found_at_0_prefix in Ef. specialize (Ha Ef). destruct Ef as [rest ->].
      unfold substr. rewrite skipn_app_exact.
      assert (Hr : ascii7 rest) by (apply Forall_app in Ha; apply Ha).
      rewrite mapM_tolower_ascii by auto. cbn [bind]. destruct rest as [|c rest].
      + exists os. split; [|reflexivity]. apply eo_skip; auto. right. apply app_nil_r.
      + exists (env_option (map lower_ascii (c :: rest)) v :: os). split; [|reflexivity].
        eapply eo_take; eauto; [discriminate|]. now apply lowered_map.
    - cbn [bind]. exists os. split; [|reflexivity]. apply eo_skip; auto. left.
      rewrite <- found_at_0_prefix. congruence. }
  destruct E as (os & Ho & ->). eauto.
Qed.

(** ** The text about conflicting wildcards *)

Lemma add_option_text P n e : ss_sorted P -> cf_add_option P n = Throw e ->
  exists s i q, n = s ++ [c_star] /\ In i P /\ In q P /\ (prefix_of s q \/ prefix_of q s)
    /\ e = plain_exn (po_error ($"options '" ++ s ++ $"*' and '" ++ i ++ $"*' will both match the same arguments from the configuration file")).
Proof.
  intros Hs H. destruct (list_eq_dec ascii_dec n []) as [->|Hn]; [discriminate|].
  destruct (star_dec n) as [[s ->]|Hst]; [|rewrite add_option_plain in H by assumption; discriminate].
  unfold cf_add_option in H. replace (is_empty (s ++ [c_star])) with false in H by now destruct s.
  rewrite last_char_app in H. cbn [bind] in H. rewrite char_eqb_refl, removelast_last in H.
  destruct (ss_lower_bound_spec s Hs) as (lo & hi & El & EP & Hlo & Hhi). rewrite El in H. cbn [fst snd] in H.
  assert (Ilo : forall i before, rev lo = i :: before -> In i P).
  { intros i before E. rewrite EP. apply in_or_app. left. apply in_rev. rewrite E. now left. }
  assert (Ihi : forall i after, hi = i :: after -> In i P).
  { intros i after ->. rewrite EP. apply in_or_app. right. now left. }
  destruct (match hi with i :: _ => found_at_0 s i | [] => false end) eqn:E1.
  - cbn [orb] in H. destruct hi as [|q hi]; [discriminate|]. apply found_at_0_prefix in E1. exists s.
    destruct (rev lo) as [|i before] eqn:Er; injection H as <-; [exists q, q|exists i, q]; rewrite <- !app_assoc; cbn [List.app]; eauto 10.
  - destruct (rev lo) as [|q before] eqn:Er; [discriminate|]. cbn [orb] in H. destruct (found_at_0 q s) eqn:E2; [|discriminate].
    apply found_at_0_prefix in E2. injection H as <-. exists s, q, q. rewrite <- !app_assoc. cbn [List.app]. eauto 10.
Qed.

Lemma add_options_text al : forall P e, ss_sorted P -> NoDup al -> (forall p, In p P -> ~ In (p ++ [c_star]) al) -> cf_add_options P al = Throw e ->
  exists s i q, In (s ++ [c_star]) al /\ (In i P \/ In (i ++ [c_star]) al) /\ (In q P \/ In (q ++ [c_star]) al) /\ i <> s /\ q <> s
    /\ (prefix_of s q \/ prefix_of q s)
    /\ e = plain_exn (po_error ($"options '" ++ s ++ $"*' and '" ++ i ++ $"*' will both match the same arguments from the configuration file")).
Proof.
  induction al as [|n al IH]; intros P e Hs Hd Hdis H; cbn [cf_add_options] in H; [discriminate|].
  inversion Hd as [|? ? Hni Hd']; subst. destruct (cf_add_option P n) as [P'|e'|u|] eqn:E; cbn [bind] in H; try discriminate.
  - assert (K : P' = P \/ exists s, n = s ++ [c_star] /\ P' = ss_insert s P).
    { unfold cf_add_option in E. destruct (is_empty n) eqn:En; [discriminate|]. apply is_empty_false in En.
      destruct (last_char_nonempty En) as (t & c & -> & El). rewrite El in E. cbn [bind] in E.
      destruct (char_eqb_spec c c_star) as [->|]; [|left; congruence]. rewrite removelast_last in E.
      match type of E with (if ?b then _ else _) = _ => destruct b end; [discriminate|]. right. exists t. split; congruence. }
    destruct K as [->|(s0 & -> & ->)].
    + destruct (IH P e Hs Hd') as (s & i & q & A & B & C & D); [intros p Hp Hi; apply (Hdis p Hp); now right|exact H|].
      exists s, i, q. split; [now right|]. split; [simpl; tauto|]. split; [simpl; tauto|exact D].
    + destruct (IH (ss_insert s0 P) e (ss_insert_sorted s0 Hs) Hd') as (s & i & q & A & B & C & D); [|exact H|].
      * intros p Hp Hi. apply ss_insert_In in Hp. destruct Hp as [->|Hp]; [contradiction|]. apply (Hdis p Hp). now right.
      * assert (L : forall x, In x (ss_insert s0 P) \/ In (x ++ [c_star]) al -> In x P \/ In (x ++ [c_star]) ((s0 ++ [c_star]) :: al)).
        { intros x. rewrite ss_insert_In. simpl. intros [[->|]|]; auto. }
        exists s, i, q. split; [now right|]. split; [apply L; exact B|]. split; [apply L; exact C|exact D].
  - injection H as <-. apply add_option_text in E as (s & i & q & -> & Hi & Hq & Hp & ->); [|assumption].
    assert (N : forall x, In x P -> x <> s). { intros x Hx ->. apply (Hdis s Hx). now left. }
    exists s, i, q. split; [now left|]. split; [auto|]. split; [auto|]. split; [apply N; assumption|]. split; [apply N; assumption|]. split; [assumption|reflexivity].
Qed.

Lemma config_conflict_text content ds allow : all_named ds -> ~ compatible ds ->
  exists s i q, wildcard ds s /\ wildcard ds i /\ wildcard ds q /\ i <> s /\ q <> s /\ (prefix_of s q \/ prefix_of q s)
    /\ parse_config_file content ds allow = Throw (plain_exn (po_error
         ($"options '" ++ s ++ $"*' and '" ++ i ++ $"*' will both match the same arguments from the configuration file"))).
Proof.
  intros Hn Hc. destruct (config_conflict content ds allow Hn Hc) as [msg Hm].
  destruct (build_spec ds Hn) as [[H _]|[_ [msg' E]]]; [contradiction|].
  destruct (cf_allowed_spec ds [] Hn) as (al & Ea & S & I & N). rewrite Ea in E. cbn [bind] in E.
  destruct (cf_add_options [] al) as [P|e|u|] eqn:Ep; cbn [bind] in E; try discriminate.
  assert (Hnd : NoDup al) by (apply sorted_nodup, S; constructor).
  assert (X := Ep). apply add_options_text in X as (s & i & q & A & B & C & D1 & D2 & D3 & ->); [|constructor|assumption|intros ? []].
  exists s, i, q. split; [apply (wildcard_In ds al s I); now right|]. split; [now apply (wildcard_In ds al i I)|]. split; [now apply (wildcard_In ds al q I)|].
  split; [assumption|]. split; [assumption|]. split; [assumption|].
  unfold parse_config_file. rewrite Ea. cbn [bind]. rewrite Ep. reflexivity.
Qed.
