(** Lemmas about help that is printed on streams. *)

From Coq Require Import List Ascii String NArith ZArith Bool Arith Lia.
From Verif Require Import Base Errors Spec BaseFacts Values OptDesc Format SpecFormat FormatFacts FormatFacts2 Masked OutStream SpecOut.
Import ListNotations.

Set Implicit Arguments.

(** ** The operations of [print] write its text *)

Definition op_text (o : op) : str := match o with Insert s => s | Put c => [c] end.
Definition flat (ops : list op) : str := List.concat (map op_text ops).

Definition den (m : writer unit) : outcome str :=
  match m with
  | (ops, Ok _) => Ok (flat ops)
  | (_, Throw e) => Throw e
  | (_, Undef u) => Undef u
  | (_, NoFuel) => NoFuel
  end.

Lemma flat_app a b : flat (a ++ b) = flat a ++ flat b.
Proof. unfold flat. now rewrite map_app, concat_app. Qed.

Lemma flat_puts r : flat (map Put r) = r.
Proof. unfold flat. induction r as [|c r IH]; cbn in *; [reflexivity|]. now rewrite IH. Qed.

Lemma flat_spaces n : flat (put_spaces n) = spaces n.
Proof. unfold put_spaces, flat, spaces. induction (Z.to_nat n) as [|k IH]; cbn in *; [reflexivity|]. now rewrite IH. Qed.

Lemma flat_chars s : flat (map (fun c => Insert [c]) s) = s.
Proof. unfold flat. induction s as [|c s IH]; cbn in *; [reflexivity|]. now rewrite IH. Qed.

Lemma den_write ops k : den (wbind (write ops) k) = let* r := den (k tt) in Ok (flat ops ++ r).
Proof. cbn. destruct (k tt) as [ops' [[]| | |]]; cbn; [|reflexivity..]. now rewrite flat_app. Qed.

Lemma den_lift A (x : outcome A) k : den (wbind (wlift x) k) = let* a := x in den (k a).
Proof. destruct x as [a| | |]; cbn; [|reflexivity..]. destruct (k a) as [ops' [[]| | |]]; reflexivity. Qed.

Lemma den_bind m k : den (wbind m k) = let* t := den m in let* r := den (k tt) in Ok (t ++ r).
Proof.
  destruct m as [ops [[]| | |]]; cbn; [|reflexivity..]. destruct (k tt) as [ops' [[]| | |]]; cbn; [|reflexivity..]. now rewrite flat_app.
Qed.

Lemma wbind_ext A B (m : writer A) (k k' : A -> writer B) : (forall a, k a = k' a) -> wbind m k = wbind m k'.
Proof. intros H. destruct m as [ops [a| | |]]; cbn; [|reflexivity..]. now rewrite H. Qed.

Lemma wbind_assoc A B C (m : writer A) (f : A -> writer B) (g : B -> writer C) : wbind (wbind m f) g = wbind m (fun a => wbind (f a) g).
Proof.
  destruct m as [ops [a| | |]]; cbn; [|reflexivity..]. destruct (f a) as [ops' [b| | |]]; cbn; [|reflexivity..].
  destruct (g b) as [ops'' r]. now rewrite app_assoc.
Qed.

Lemma den_lines fuel : forall text first par_indent indent L,
  den (wformat_lines fuel text first par_indent indent L) = format_lines fuel text first par_indent indent L.
Proof.
  induction fuel as [|fuel IH]; intros text first par_indent indent L; [destruct text; reflexivity|].
  destruct text as [|c0 text0]; [reflexivity|]. cbn [wformat_lines format_lines].
  rewrite den_lift. destruct (line_break _ L) as [n| | |]; cbn [bind]; [|reflexivity..].
  rewrite den_write, den_write, IH. destruct (format_lines fuel _ false _ _ _) as [more| | |]; cbn [bind]; [|reflexivity..].
  rewrite flat_chars. f_equal. f_equal. f_equal. destruct (skipn n _); [reflexivity|].
  change (flat (Insert [c_nl] :: put_spaces (if first then (indent + par_indent) mod 4294967296 else indent)%Z))
    with ([c_nl] ++ flat (put_spaces (if first then (indent + par_indent) mod 4294967296 else indent)%Z)).
  now rewrite flat_spaces.
Qed.

Lemma den_paragraph ndebug par indent L : den (wformat_paragraph ndebug par indent L) = format_paragraph ndebug par indent L.
Proof.
  unfold wformat_paragraph, format_paragraph. rewrite den_lift. destruct (assert_ _ _); cbn [bind]; [|reflexivity..].
  rewrite den_lift. match goal with |- (let* a := ?x in _) = _ => destruct x as [[par' hang]| | |] end; cbn [bind]; [|reflexivity..].
  destruct (Z.ltb _ _); [cbn; now rewrite app_nil_r|]. apply den_lines.
Qed.

Lemma den_paragraphs ndebug pars width L : den (wformat_paragraphs ndebug pars width L) = format_paragraphs ndebug pars width L.
Proof.
  induction pars as [|par pars IH]; [reflexivity|]. cbn [wformat_paragraphs format_paragraphs].
  rewrite den_bind, den_paragraph. destruct (format_paragraph _ _ _ _) as [t| | |]; cbn [bind]; [|reflexivity..].
  rewrite den_write, IH. destruct (format_paragraphs _ _ _ _) as [r| | |]; cbn [bind]; [|reflexivity..]. f_equal. f_equal. f_equal.
  destruct pars; [reflexivity|]. change (flat (Insert [c_nl] :: put_spaces width)) with ([c_nl] ++ flat (put_spaces width)). now rewrite flat_spaces.
Qed.

Lemma den_description ndebug desc width L : den (wformat_description ndebug desc width L) = format_description ndebug desc width L.
Proof.
  unfold wformat_description, format_description. rewrite den_lift. destruct (assert_ _ _); cbn [bind]; [|reflexivity..].
  rewrite den_lift. destruct (assert_ _ _); cbn [bind]; [|reflexivity..]. apply den_paragraphs.
Qed.

Lemma den_one ndebug d width L : den (wformat_one ndebug d width L) = format_one ndebug d width L.
Proof.
  unfold wformat_one, format_one. rewrite den_lift. destruct (first_column d) as [ss| | |]; cbn [bind]; [|reflexivity..].
  rewrite den_write. destruct (is_empty (od_text d)); [cbn; now rewrite !app_nil_r|].
  rewrite den_write, den_description. destruct (format_description _ _ _ _) as [t| | |]; cbn [bind]; [|reflexivity..].
  f_equal. unfold flat at 1. cbn [map op_text List.concat]. rewrite app_nil_r. f_equal. f_equal.
  destruct (Z.leb _ _); [|apply flat_spaces].
  change (flat (Put c_nl :: put_spaces width)) with ([c_nl] ++ flat (put_spaces width)). now rewrite flat_spaces.
Qed.

Lemma den_options ndebug opts width L : den (wprint_options ndebug opts width L) = print_options ndebug opts width L.
Proof.
  induction opts as [|[d []] opts IH]; [reflexivity|exact IH|]. cbn [wprint_options print_options].
  rewrite den_bind, den_one. destruct (format_one _ _ _ _) as [t| | |]; cbn [bind]; [|reflexivity..].
  rewrite den_write, IH. destruct (print_options _ _ _ _) as [r| | |]; cbn [bind]; reflexivity.
Qed.

(** The inner loop of [wprint]. *)
Fixpoint wprint_all (ndebug : bool) (gs : list options_description) (width : Z) : writer unit :=
  match gs with
  | [] => wlift (Ok tt)
  | g :: gs' =>
      wbind (write [Insert [c_nl]]) (fun _ => wbind (wprint ndebug g width) (fun _ => wprint_all ndebug gs' width))
  end.

Definition wheading (caption : str) : list op := if is_empty caption then [] else [Insert caption; Insert [":"%char; c_nl]].

Lemma wprint_eq ndebug c L m opts groups width :
  wprint ndebug (mk_ods c L m opts groups) width =
  wbind (write (wheading c)) (fun _ =>
  wbind (wlift (if Z.eqb width 0 then get_option_column_width (mk_ods c L m opts groups) else Ok width)) (fun width =>
  wbind (wprint_options ndebug opts width L) (fun _ => wprint_all ndebug groups width))).
Proof.
  assert (E : forall width, (fix wprint_groups (gs : list options_description) : writer unit :=
         match gs with
         | [] => wlift (Ok tt)
         | g :: gs' => wbind (write [Insert [c_nl]]) (fun _ => wbind (wprint ndebug g width) (fun _ => wprint_groups gs'))
         end) groups = wprint_all ndebug groups width).
  { intros w. induction groups as [|g gs IH]; [reflexivity|]. cbn [wprint_all]. rewrite IH. reflexivity. }
  cbn [wprint]. apply wbind_ext. intros _. apply wbind_ext. intros w. apply wbind_ext. intros _. apply E.
Qed.

Fixpoint ods_ind2 (P : options_description -> Prop)
    (H : forall c L m opts groups, Forall P groups -> P (mk_ods c L m opts groups)) (od : options_description) : P od :=
  match od with
  | mk_ods c L m opts groups =>
      H c L m opts groups ((fix go (gs : list options_description) : Forall P gs :=
        match gs with [] => Forall_nil _ | g :: gs' => @Forall_cons _ _ g gs' (@ods_ind2 P H g) (go gs') end) groups)
  end.

Lemma print_all_eq ndebug groups width : (fix print_groups (gs : list options_description) : outcome str :=
      match gs with
      | [] => Ok []
      | g :: gs' => let* t := print ndebug g width in let* rest := print_groups gs' in Ok ([c_nl] ++ t ++ rest)
      end) groups = print_all ndebug groups width.
Proof. induction groups as [|g gs IH]; [reflexivity|]. cbn [print_all]. rewrite IH. reflexivity. Qed.

Lemma den_print ndebug od : forall width, den (wprint ndebug od width) = print ndebug od width.
Proof.
  induction od as [c L m opts groups IH] using ods_ind2. intros width. rewrite wprint_eq. cbn [print].
  rewrite den_write, den_lift. destruct (if Z.eqb width 0 then _ else _) as [w| | |]; cbn [bind]; [|reflexivity..].
  rewrite den_bind, den_options. destruct (print_options ndebug opts w L) as [body| | |]; cbn [bind]; [|reflexivity..].
  rewrite print_all_eq. assert (E : den (wprint_all ndebug groups w) = print_all ndebug groups w).
  { clear - IH. induction IH as [|g gs Hg _ IH]; [reflexivity|]. cbn [wprint_all print_all].
    rewrite den_write, den_bind, Hg. destruct (print ndebug g w) as [t| | |]; cbn [bind]; [|reflexivity..].
    rewrite IH. destruct (print_all ndebug gs w) as [r| | |]; cbn [bind]; reflexivity. }
  rewrite E. destruct (print_all ndebug groups w) as [tail| | |]; cbn [bind]; [|reflexivity..]. f_equal. f_equal.
  destruct c; [reflexivity|]. unfold wheading, flat. reflexivity.
Qed.

(** ** What the operations do to the stream *)

Definition first_padded (s : ostream) : list op -> str :=
  fix go (ops : list op) : str :=
    match ops with
    | [] => []
    | Put c :: ops' => c :: go ops'
    | Insert t :: ops' => padded (os_width s) (os_fill s) (os_left s) t ++ flat ops'
    end.

Definition has_insert (ops : list op) : bool := existsb (fun o => match o with Insert _ => true | Put _ => false end) ops.

Lemma padded_0 w fill left t : (w <= 0)%Z -> padded w fill left t = t.
Proof.
  intros H. unfold padded. replace (Z.to_nat (w - Z.of_nat (List.length t))) with 0 by lia. cbn. destruct left; [apply app_nil_r|reflexivity].
Qed.

Lemma first_padded_0 s ops : (os_width s <= 0)%Z -> first_padded s ops = flat ops.
Proof.
  intros H. induction ops as [|[t|c] ops IH]; [reflexivity| |].
  - cbn [first_padded]. rewrite padded_0 by exact H. reflexivity.
  - cbn [first_padded]. fold (first_padded s). rewrite IH. reflexivity.
Qed.

Lemma first_padded_same s s' ops : os_width s' = os_width s -> os_fill s' = os_fill s -> os_left s' = os_left s ->
  first_padded s' ops = first_padded s ops.
Proof.
  intros H1 H2 H3. induction ops as [|[t|c] ops IH]; cbn [first_padded]; [reflexivity| |]; [now rewrite H1, H2, H3|].
  fold (first_padded s) (first_padded s'). now rewrite IH.
Qed.

Lemma ready_good s : ready s <-> os_good s = true.
Proof. unfold ready, os_good. destruct (os_eof s), (os_fail s), (os_bad s); cbn; intuition congruence. Qed.

Definition taken (s : ostream) (n : nat) : option nat := option_map (fun r => r - n) (os_room s).

Lemma exec_room impl : forall ops s, ready s -> room_for s (List.length (first_padded s ops)) ->
  os_exec impl s ops = (mk_os (os_text s ++ first_padded s ops) (taken s (List.length (first_padded s ops)))
    false false false (if has_insert ops then 0%Z else os_width s) (os_fill s) (os_left s) (os_mask s), false).
Proof.
  assert (base : forall s, ready s -> s = mk_os (os_text s ++ []) (taken s 0) false false false (os_width s) (os_fill s) (os_left s) (os_mask s)).
  { intros [t r e f b w fi l m] (H1 & H2 & H3). cbn in *. subst. unfold taken. cbn. rewrite app_nil_r. destruct r as [r|]; cbn; [|reflexivity].
    now rewrite Nat.sub_0_r. }
  induction ops as [|o ops IH]; intros s Hr Hroom.
  - cbn [os_exec first_padded has_insert existsb List.length]. now rewrite <- base.
  - cbn [os_exec]. unfold os_step. rewrite (proj1 (ready_good s) Hr). cbn [negb].
    assert (step : forall t w, room_for s (List.length t) ->
      deliver s t w = (mk_os (os_text s ++ t) (taken s (List.length t)) false false false w (os_fill s) (os_left s) (os_mask s), true)).
    { intros t w Ht. unfold deliver, taken, room_for in *. destruct Hr as (-> & -> & ->). destruct (os_room s) as [r|]; cbn [option_map]; [|reflexivity].
      rewrite firstn_all2 by exact Ht. apply Nat.leb_le in Ht. now rewrite Ht. }
    destruct o as [t|c].
    + cbn [first_padded] in *. set (p := padded _ _ _ t) in *. rewrite app_length in Hroom.
      assert (Hp : room_for s (List.length p)) by (unfold room_for in *; destruct (os_room s); [lia|exact I]).
      rewrite step by exact Hp. cbv beta iota zeta.
      rewrite IH; [| now repeat split |].
      * rewrite first_padded_0 by (cbn; lia). cbn [os_text os_fill os_left os_mask os_width has_insert existsb orb].
        rewrite <- app_assoc, app_length. unfold taken. cbn [os_room]. destruct (os_room s) as [r|]; cbn [option_map].
        -- f_equal. f_equal; [f_equal; lia|]. match goal with |- (if ?b then _ else _) = _ => now destruct b end.
        -- f_equal. f_equal. match goal with |- (if ?b then _ else _) = _ => now destruct b end.
      * rewrite first_padded_0 by (cbn; lia). unfold room_for, taken in *. cbn [os_room]. destruct (os_room s) as [r|]; cbn [option_map]; [lia|exact I].
    + cbn [first_padded] in *. fold (first_padded s) in *. cbn [List.length] in Hroom.
      rewrite step by (unfold room_for in *; destruct (os_room s); cbn; [lia|exact I]). cbv beta iota zeta.
      match goal with |- os_exec impl ?x ops = _ => set (s1 := x) end.
      assert (E : first_padded s1 ops = first_padded s ops) by now apply first_padded_same.
      rewrite IH; [| now repeat split |].
      * rewrite E. unfold s1. cbn [os_text os_fill os_left os_mask os_width has_insert existsb orb].
        rewrite <- app_assoc. cbn [List.length app]. unfold taken. cbn [os_room].
        destruct (os_room s) as [r|]; cbn [option_map]; [|reflexivity]. f_equal. f_equal. f_equal. lia.
      * rewrite E. unfold room_for, s1, taken in *. cbn [os_room]. destruct (os_room s) as [r|]; cbn [option_map List.length]; [lia|exact I].
Qed.

Lemma setstate_text s f b s' t : os_setstate s f b = (s', t) ->
  os_text s' = os_text s /\ os_mask s' = os_mask s /\ os_fill s' = os_fill s /\ os_left s' = os_left s
  /\ os_bad s' = (os_bad s || b)%bool /\ os_fail s' = (os_fail s || f)%bool /\ os_eof s' = os_eof s /\ t = os_hits s'.
Proof. unfold os_setstate. intros [= <- <-]. repeat split. Qed.

Lemma exec_stuck impl : forall ops s s' t, ~ ready s -> os_exec impl s ops = (s', t) ->
  os_text s' = os_text s /\ same_settings s s' /\ (os_bad s = true -> os_bad s' = true) /\ ~ ready s' /\ (os_fail s = true -> os_fail s' = true)
  /\ os_bad s' = os_bad s /\ os_eof s' = os_eof s
  /\ (os_hits s = false -> on_fail (os_mask s) = false -> t = false)
  /\ (t = true -> os_hits s' = true).
Proof.
  induction ops as [|o ops IH]; intros s s' t Hr E; cbn [os_exec] in E.
  - injection E as <- <-. repeat split; auto. discriminate.
  - unfold os_step in E. destruct (os_good s) eqn:G; [apply ready_good in G; contradiction|]. cbn [negb] in E.
    destruct (sentry_sets_failbit impl).
    + destruct (os_setstate s true false) as [s1 t1] eqn:E1. apply setstate_text in E1. destruct E1 as (T1 & T2 & T3 & T4 & T5 & T6 & T7 & ->).
      rewrite orb_false_r in T5. rewrite orb_true_r in T6.
      assert (N : ~ ready s1) by (intros (_ & K & _); congruence).
      destruct (os_hits s1) eqn:Hh.
      * injection E as <- <-. split; [exact T1|]. split; [repeat split; congruence|]. split; [congruence|]. split; [exact N|]. split; [auto|].
        split; [congruence|]. split; [congruence|]. split; [|auto]. intros H1 H2. exfalso. unfold os_hits in *. rewrite T2, T5, T6, T7, H2 in Hh.
        rewrite H2 in H1. cbn in *. congruence.
      * destruct (IH _ _ _ N E) as (A1 & (A2 & A3 & A4) & A5 & A6 & A7 & A8 & A9 & A10 & A11).
        split; [congruence|]. split; [repeat split; congruence|]. split; [intros K; apply A5; congruence|]. split; [exact A6|].
        split; [intros _; now apply A7|]. split; [congruence|]. split; [congruence|]. split; [|exact A11].
        intros H1 H2. apply A10; [exact Hh|congruence].
    + apply (IH _ _ _ Hr E).
Qed.

Lemma exec_short impl : forall ops s s' t n, ready s -> os_room s = Some n -> n < List.length (first_padded s ops) ->
  os_exec impl s ops = (s', t) ->
  os_text s' = os_text s ++ firstn n (first_padded s ops) /\ os_bad s' = true /\ same_settings s s'
  /\ (silent s -> t = false) /\ (on_bad (os_mask s) = true -> t = true).
Proof.
  assert (lost : forall ops s s' t w f p n, ready s -> os_room s = Some n -> n < List.length p ->
    (let (s1, th) := os_setstate (fst (deliver s p w)) f true in if (th : bool) then (s1, true) else os_exec impl s1 ops) = (s', t) ->
    os_text s' = os_text s ++ firstn n p /\ os_bad s' = true /\ same_settings s s'
    /\ (silent s -> t = false) /\ (on_bad (os_mask s) = true -> t = true)).
  { intros ops s s' t w f p n Hr Hn Hp E. unfold deliver in E. rewrite Hn in E. cbn [fst] in E.
    destruct (os_setstate _ f true) as [s1 th] eqn:E1. apply setstate_text in E1. destruct E1 as (T1 & T2 & T3 & T4 & T5 & T6 & T7 & ->).
    cbn [os_text os_mask os_fill os_left os_bad os_fail os_eof] in *. rewrite orb_true_r in T5.
    destruct (os_hits s1) eqn:Hh.
    - injection E as <- <-. split; [exact T1|]. split; [exact T5|]. split; [repeat split; congruence|]. split; [|auto].
      intros [S1 S2]. destruct Hr as (R1 & R2 & R3). unfold os_hits in Hh. rewrite T2, S1, S2, T7, R1 in Hh. rewrite andb_false_r in Hh. discriminate Hh.
    - assert (N : ~ ready s1) by (intros (_ & _ & K); congruence).
      destruct (exec_stuck _ _ N E) as (A1 & (A2 & A3 & A4) & A5 & A6 & A7 & A8 & A9 & A10 & A11).
      split; [congruence|]. split; [congruence|]. split; [repeat split; congruence|]. split.
      + intros [S1 S2]. apply A10; [exact Hh|congruence].
      + intros S2. unfold os_hits in Hh. rewrite T2, S2, T5 in Hh. cbn in Hh. rewrite orb_true_r in Hh. discriminate Hh. }
  induction ops as [|o ops IH]; intros s s' t n Hr Hn Hl E; [cbn in Hl; lia|].
  cbn [os_exec] in E. unfold os_step in E. rewrite (proj1 (ready_good s) Hr) in E. cbn [negb] in E.
  destruct o as [x|c].
  - cbn [first_padded] in *. set (p := padded _ _ _ x) in *. rewrite app_length in Hl. unfold deliver in E. rewrite Hn in E.
    destruct (Nat.leb_spec (List.length p) n) as [K|K].
    + cbv beta iota zeta in E. rewrite (firstn_all2 p K) in E.
      match type of E with os_exec impl ?y ops = _ => set (s1 := y) in * end.
      assert (Hr1 : ready s1) by (destruct Hr as (R1 & R2 & R3); unfold s1; now repeat split).
      assert (Ef : first_padded s1 ops = flat ops) by (apply first_padded_0; cbn; lia).
      destruct (IH s1 s' t (n - List.length p) Hr1 eq_refl) as (A1 & A2 & (A3 & A4 & A5) & A6 & A7); [rewrite Ef; lia|exact E|].
      split; [|split; [exact A2|split; [now repeat split|split; [exact A6|exact A7]]]].
      rewrite A1, Ef. unfold s1. cbn [os_text]. rewrite <- app_assoc. f_equal. rewrite firstn_app. f_equal. now rewrite firstn_all2.
    + cbv beta iota zeta in E.
      destruct (lost ops s s' t 0%Z (loss_sets_failbit impl) p n Hr Hn K) as (A1 & A2 & A3 & A4 & A5).
      * unfold deliver. rewrite Hn. cbn [fst]. exact E.
      * split; [|auto]. rewrite A1. f_equal. rewrite firstn_app. replace (n - List.length p) with 0 by lia. cbn. now rewrite app_nil_r.
  - cbn [first_padded] in *. fold (first_padded s) in *. cbn [List.length] in Hl. unfold deliver in E. rewrite Hn in E. cbn [List.length] in E.
    destruct n as [|n].
    + cbn [Nat.leb] in E. cbv beta iota zeta in E.
      destruct (lost ops s s' t (os_width s) false [c] 0 Hr Hn) as (A1 & A2 & A3 & A4 & A5); [cbn; lia| |].
      * unfold deliver. rewrite Hn. cbn [fst List.length]. exact E.
      * split; [exact A1|auto].
    + cbn [Nat.leb] in E. cbv beta iota zeta in E.
      match type of E with os_exec impl ?y ops = _ => set (s1 := y) in * end.
      assert (Hr1 : ready s1) by (destruct Hr as (R1 & R2 & R3); unfold s1; now repeat split).
      assert (Ef : first_padded s1 ops = first_padded s ops) by now apply first_padded_same.
      destruct (IH s1 s' t (S n - 1) Hr1 eq_refl) as (A1 & A2 & (A3 & A4 & A5) & A6 & A7); [rewrite Ef; lia|exact E|].
      split; [|split; [exact A2|split; [now repeat split|split; [exact A6|exact A7]]]].
      rewrite A1, Ef. unfold s1. cbn [os_text]. rewrite <- app_assoc. f_equal. replace (S n - 1) with n by lia. cbn [firstn]. rewrite firstn_nil. reflexivity.
Qed.


(** ** Sections *)

Definition wsection (ndebug : bool) (width : Z) (x : section) : writer unit :=
  match x with
  | (c, L, ds) => wbind (write (wheading c)) (fun _ => wprint_options ndebug (map (fun d => (d, false)) ds) width L)
  end.
Fixpoint wsections (ndebug : bool) (width : Z) (xs : list section) : writer unit :=
  match xs with
  | [] => wlift (Ok tt)
  | x :: xs' => wbind (write [Insert [c_nl]]) (fun _ => wbind (wsection ndebug width x) (fun _ => wsections ndebug width xs'))
  end.
Definition wlist (ndebug : bool) (width : Z) (xs : list section) : writer unit :=
  match xs with
  | [] => wlift (Ok tt)
  | x :: xs' => wbind (wsection ndebug width x) (fun _ => wsections ndebug width xs')
  end.

Lemma wlift_tt A (k : unit -> writer A) : wbind (wlift (Ok tt)) k = k tt.
Proof. cbn. now destruct (k tt). Qed.

Lemma wlift_Ok A B (a : A) (k : A -> writer B) : wbind (wlift (Ok a)) k = k a.
Proof. cbn. now destruct (k a). Qed.

Lemma wsections_app ndebug width a b : wsections ndebug width (a ++ b) = wbind (wsections ndebug width a) (fun _ => wsections ndebug width b).
Proof.
  induction a as [|x a IH]; cbn [app wsections]; [now rewrite wlift_tt|]. rewrite wbind_assoc. apply wbind_ext. intros _.
  rewrite wbind_assoc. apply wbind_ext. intros _. exact IH.
Qed.

Lemma woptions_grouped ndebug ds opts width L :
  wprint_options ndebug (map (fun d => (d, true)) ds ++ opts) width L = wprint_options ndebug opts width L.
Proof. induction ds as [|d ds IH]; [reflexivity|exact IH]. Qed.

Lemma woptions_direct ndebug items opts groups width L : built_items items opts groups ->
  wprint_options ndebug opts width L = wprint_options ndebug (map (fun d => (d, false)) (direct items)) width L.
Proof.
  intros B. induction B as [|d items opts groups B IH|t g items opts groups _ B IH]; [reflexivity| |].
  - cbn [direct flat_map app map wprint_options]. apply wbind_ext. intros _. apply wbind_ext. intros _. exact IH.
  - rewrite woptions_grouped. exact IH.
Qed.

Lemma wprint_sections ndebug width : width <> 0%Z ->
  (forall t ods, built t ods -> wprint ndebug ods width = wlist ndebug width (sections t))
  /\ (forall items opts groups, built_items items opts groups ->
      wprint_all ndebug groups width = wsections ndebug width (group_sections items)).
Proof.
  intros Hw. apply built_mut.
  - intros c L m items opts groups _ B IH. rewrite wprint_eq. cbn [sections wlist wsection]. fold (direct items) (group_sections items).
    rewrite wbind_assoc. apply wbind_ext. intros _. apply Z.eqb_neq in Hw. rewrite Hw. cbn [wbind wlift].
    rewrite (woptions_direct ndebug width L B). rewrite IH. unfold wlift. cbn. now destruct (wbind _ _).
  - reflexivity.
  - intros d items opts groups _ IH. exact IH.
  - intros t g items opts groups _ IHt _ IH. cbn [wprint_all group_sections flat_map]. fold (group_sections items).
    rewrite wsections_app, IH, IHt. destruct (sections t) as [|x xs] eqn:E; [destruct t; discriminate|].
    cbn [wsections wlist]. rewrite !wbind_assoc. reflexivity.
Qed.

(** ** Exceptions *)

Lemma den_Throw m e : den m = Throw e -> exists ops, m = (ops, Throw e).
Proof. destruct m as [ops [| | |]]; cbn; intros H; try discriminate. injection H as ->. eauto. Qed.

Lemma wbind_Throw A B (m : writer A) (k : A -> writer B) ops e : wbind m k = (ops, Throw e) ->
  m = (ops, Throw e) \/ exists ops1 a ops2, m = (ops1, Ok a) /\ k a = (ops2, Throw e) /\ ops = ops1 ++ ops2.
Proof.
  destruct m as [o [a|e'| |]]; cbn; intros H; try discriminate.
  - right. destruct (k a) as [o2 r] eqn:E. injection H as <- ->. eauto 8.
  - left. congruence.
Qed.

Lemma wwrite_Throw B ops1 (k : unit -> writer B) ops e : wbind (write ops1) k = (ops, Throw e) ->
  exists ops2, k tt = (ops2, Throw e) /\ ops = ops1 ++ ops2.
Proof. cbn. destruct (k tt) as [o2 r]. intros [= <- ->]. eauto. Qed.

Lemma wlift_Throw A B (x : outcome A) (k : A -> writer B) ops e : wbind (wlift x) k = (ops, Throw e) ->
  (x = Throw e /\ ops = []) \/ exists a, x = Ok a /\ k a = (ops, Throw e).
Proof.
  destruct x as [a|e'| |]; cbn; intros H; try discriminate.
  - right. destruct (k a) as [o r] eqn:E. injection H as <- ->. eauto.
  - left. injection H as <- ->. auto.
Qed.

Lemma assert_no_throw ndebug b e : assert_ ndebug b <> Throw e.
Proof. unfold assert_. destruct (b || ndebug); discriminate. Qed.

Lemma line_break_no_throw text L e : line_break text L <> Throw e.
Proof.
  unfold line_break. destruct (rev _); [discriminate|]. destruct (skipn _ _); [discriminate|].
  destruct (_ && _); [|discriminate]. destruct (_ && _); discriminate.
Qed.

Lemma lines_no_throw fuel : forall text first pi indent L ops e, wformat_lines fuel text first pi indent L <> (ops, Throw e).
Proof.
  induction fuel as [|fuel IH]; intros text first pi indent L ops e H; [destruct text; discriminate|].
  destruct text as [|c0 text0]; [discriminate|]. cbn [wformat_lines] in H.
  apply wlift_Throw in H as [[H _]|(n & _ & H)]; [exact (line_break_no_throw _ _ H)|].
  apply wwrite_Throw in H as (o & H & _). apply wwrite_Throw in H as (o' & H & _). exact (IH _ _ _ _ _ _ _ H).
Qed.

Lemma two_tabs_count par : 1 < count_char c_tab par -> two_tabs par.
Proof.
  assert (one : forall s, 0 < count_char c_tab s -> In c_tab s).
  { intros s H. destruct (in_dec ascii_dec c_tab s) as [I|N]; [exact I|]. rewrite count_char_0 in H; [lia|exact N]. }
  intros H. destruct (in_split c_tab par (one par ltac:(lia))) as (a & b & ->).
  destruct (in_dec ascii_dec c_tab b) as [I|N].
  - apply in_split in I as (b1 & b2 & ->). now exists a, b1, b2.
  - rewrite count_char_app, count_char_cons_same, (count_char_0 N) in H.
    destruct (in_split c_tab a (one a ltac:(lia))) as (a1 & a2 & ->). exists a1, a2, b. now rewrite <- app_assoc.
Qed.

Lemma paragraph_throw ndebug par indent L ops e : wformat_paragraph ndebug par indent L = (ops, Throw e) -> ops = [] /\ two_tabs par.
Proof.
  unfold wformat_paragraph. intros H. apply wlift_Throw in H as [[H _]|(u & _ & H)]; [destruct (assert_no_throw _ _ H)|].
  apply wlift_Throw in H as [[H ->]|([par' hang] & _ & H)].
  - split; [reflexivity|]. destruct (find_char c_tab par); [|discriminate]. destruct (Nat.ltb_spec 1 (count_char c_tab par)).
    + now apply two_tabs_count.
    + destruct (assert_ _ _) eqn:E; cbn [bind] in H; try discriminate. injection H as ->. destruct (assert_no_throw _ _ E).
  - destruct (Z.ltb _ _); [discriminate|]. exfalso; eapply lines_no_throw; exact H.
Qed.

Lemma den_Ok m ops : m = (ops, Ok tt) -> den m = Ok (flat ops).
Proof. now intros ->. Qed.

Lemma paragraphs_throw pars : forall width L ops e, (0 <= width)%Z -> fits32 L -> Forall (fun p => fits32 (len p)) pars ->
  wformat_paragraphs false pars width L = (ops, Throw e) ->
  exists pars1 par pars2 texts, pars = pars1 ++ par :: pars2 /\ two_tabs par /\ Forall2 (paragraph width L) pars1 texts
    /\ flat ops = List.concat (map (fun t => t ++ c_nl :: blanks width) texts).
Proof.
  induction pars as [|par pars IH]; intros width L ops e Hw HL HF H; [discriminate|]. cbn [wformat_paragraphs] in H.
  inversion HF as [|? ? Hp HF']; subst. apply wbind_Throw in H as [H|(ops1 & [] & ops2 & H1 & H & ->)].
  - apply paragraph_throw in H as [-> H]. exists [], par, pars, []. auto.
  - apply den_Ok in H1. rewrite den_paragraph in H1. apply format_paragraph_sound in H1; auto.
    apply wwrite_Throw in H as (ops3 & H & ->). destruct (IH _ _ _ _ Hw HL HF' H) as (pars1 & p & pars2 & texts & -> & T & F & E).
    exists (par :: pars1), p, pars2, (flat ops1 :: texts). split; [reflexivity|]. split; [exact T|]. split; [now constructor|].
    rewrite !flat_app, E. cbn [map List.concat]. rewrite <- app_assoc. f_equal. f_equal.
    assert (N : forall A (x : A) a b, a ++ x :: b <> []) by (intros A x [|? ?] b; discriminate).
    destruct (pars1 ++ p :: pars2) eqn:En; [destruct (N _ _ _ _ En)|].
    change (flat (Insert [c_nl] :: put_spaces width)) with ([c_nl] ++ flat (put_spaces width)). rewrite flat_spaces. reflexivity.
Qed.

Lemma one_throw d width L ops e : (0 <= width)%Z -> fits32 L -> fits32 (len (od_text d)) ->
  wformat_one false d width L = (ops, Throw e) -> cut_option width L d (flat ops).
Proof.
  intros Hw HL Hd H. unfold wformat_one in H. apply wlift_Throw in H as [[H _]|(col & Hc & H)].
  { unfold first_column, format_name in H. destruct (negb _), (od_longs d); discriminate. }
  apply first_column_iff in Hc. apply wwrite_Throw in H as (ops1 & H & ->).
  destruct (is_empty (od_text d)); [discriminate|]. apply wwrite_Throw in H as (ops2 & H & ->).
  unfold wformat_description in H. apply wlift_Throw in H as [[H _]|(u & H1 & H)]; [destruct (assert_no_throw _ _ H)|].
  apply wlift_Throw in H as [[H _]|(u' & H2 & H)]; [destruct (assert_no_throw _ _ H)|].
  unfold assert_ in H1, H2. destruct (Z.ltb_spec 1 L) as [L1|]; [|discriminate].
  destruct (Z.ltb_spec width (L - 1)) as [L2|]; [|discriminate].
  assert (LN : lines_of (od_text d) (split_nl [] (od_text d))) by (apply (split_nl_lines (od_text d) (cur := [])); intros []).
  apply paragraphs_throw in H as (pars & par & pars' & texts & E & T & F & Ef); auto.
  - rewrite E in LN. rewrite !flat_app, Ef. unfold flat at 1. cbn [map op_text List.concat]. rewrite app_nil_r.
    eapply cut_option_at; eauto. unfold len. destruct (Z.leb_spec width (Z.of_nat (List.length col))).
    + right. split; [assumption|]. change (flat (Put c_nl :: put_spaces width)) with ([c_nl] ++ flat (put_spaces width)). now rewrite flat_spaces.
    + left. split; [assumption|]. apply flat_spaces.
  - unfold fits32 in *. lia.
  - eapply Forall_impl; [|exact (lines_of_len LN)]. cbn beta. intros l Hl. unfold fits32 in *. pose proof (len_nonneg l). lia.
Qed.

Lemma options_throw ds : forall width L ops e, (0 <= width)%Z -> fits32 L -> Forall sized_option ds ->
  wprint_options false (map (fun d => (d, false)) ds) width L = (ops, Throw e) ->
  exists ds1 d ds2 texts part, ds = ds1 ++ d :: ds2 /\ Forall2 (shown width L) ds1 texts /\ cut_option width L d part
    /\ flat ops = under texts ++ part.
Proof.
  induction ds as [|d ds IH]; intros width L ops e Hw HL HF H; [discriminate|]. cbn [map wprint_options] in H.
  inversion HF as [|? ? [Hd Hc] HF']; subst. apply wbind_Throw in H as [H|(ops1 & [] & ops2 & H1 & H & ->)].
  - apply one_throw in H; auto. exists [], d, ds, [], (flat ops). auto.
  - apply den_Ok in H1. rewrite den_one in H1. apply format_one_iff in H1; auto.
    apply wwrite_Throw in H as (ops3 & H & ->). destruct (IH _ _ _ _ Hw HL HF' H) as (ds1 & d' & ds2 & texts & part & -> & F & C & E).
    exists (d :: ds1), d', ds2, (flat ops1 :: texts), part. split; [reflexivity|]. split; [now constructor|]. split; [exact C|].
    rewrite !flat_app, E. unfold under. cbn [map List.concat]. rewrite <- !app_assoc. reflexivity.
Qed.

Lemma options_Ok ds : forall width L ops, (0 <= width)%Z -> fits32 L -> Forall sized_option ds ->
  wprint_options false (map (fun d => (d, false)) ds) width L = (ops, Ok tt) ->
  exists texts, Forall2 (shown width L) ds texts /\ flat ops = under texts.
Proof.
  intros width L ops Hw HL HF H. apply den_Ok in H. rewrite den_options in H. revert ops H.
  induction HF as [|d ds [Hd Hc] HF IH]; intros ops H.
  - injection H as <-. exists []. auto.
  - cbn [map print_options] in H. apply bind_Ok in H as (x & Hx & H). apply bind_Ok in H as (r & Hr & H). injection H as H.
    apply format_one_iff in Hx; auto. destruct (IH (map Put r)) as (texts & F & E).
    + now rewrite Hr, flat_puts.
    + exists (x :: texts). split; [now constructor|]. rewrite <- H. unfold under. cbn [map List.concat]. rewrite <- app_assoc. f_equal. f_equal.
      unfold under in E. rewrite <- E, flat_puts. reflexivity.
Qed.

Lemma flat_heading c : flat (wheading c) = heading c.
Proof. destruct c; [reflexivity|]. unfold wheading, flat. cbn. reflexivity. Qed.

Definition sized_section (x : section) : Prop := fits32 (section_length x) /\ Forall sized_option (snd x).

Lemma section_Ok x width ops : (0 <= width)%Z -> sized_section x -> wsection false width x = (ops, Ok tt) ->
  shown_section width x (flat ops).
Proof.
  destruct x as [[c L] ds]. intros Hw [HL HF] H. unfold wsection in H. cbn in H, HL, HF.
  destruct (wprint_options _ _ _ _) as [o r] eqn:E. injection H as <- ->. apply options_Ok in E as (texts & F & E); auto.
  exists texts. split; [exact F|]. rewrite flat_app, flat_heading, E. reflexivity.
Qed.

Lemma section_Throw c L ds width ops e : (0 <= width)%Z -> sized_section (c, L, ds) -> wsection false width (c, L, ds) = (ops, Throw e) ->
  exists ds1 d ds2 texts part, ds = ds1 ++ d :: ds2 /\ Forall2 (shown width L) ds1 texts /\ cut_option width L d part
    /\ flat ops = heading c ++ under texts ++ part.
Proof.
  intros Hw [HL HF] H. unfold wsection in H. apply wwrite_Throw in H as (o & H & ->). cbn in HL, HF.
  apply options_throw in H as (ds1 & d & ds2 & texts & part & -> & F & C & E); auto.
  exists ds1, d, ds2, texts, part. rewrite flat_app, flat_heading, E. auto.
Qed.

Lemma sections_Throw xs : forall width ops e, (0 <= width)%Z -> Forall sized_section xs -> wlist false width xs = (ops, Throw e) ->
  exists before texts c L ds d ds' after shown_ds part,
    xs = before ++ (c, L, ds ++ d :: ds') :: after /\ Forall2 (shown_section width) before texts
    /\ Forall2 (shown width L) ds shown_ds /\ cut_option width L d part
    /\ flat ops = under texts ++ heading c ++ under shown_ds ++ part.
Proof.
  induction xs as [|x xs IH]; intros width ops e Hw HF H; [discriminate|]. inversion HF as [|? ? Hx HF']; subst. cbn [wlist] in H.
  apply wbind_Throw in H as [H|(ops1 & [] & ops2 & H1 & H & ->)].
  - destruct x as [[c L] ds]. apply section_Throw in H as (ds1 & d & ds2 & texts & part & -> & F & C & E); auto.
    exists [], [], c, L, ds1, d, ds2, xs, texts, part. auto.
  - apply section_Ok in H1; auto. destruct xs as [|y ys]; [discriminate|]. cbn [wsections] in H. apply wwrite_Throw in H as (ops3 & H & ->).
    destruct (IH width ops3 e Hw HF' H) as (before & texts & c & L & ds & d & ds' & after & sh & part & -> & F1 & F2 & C & E).
    exists (x :: before), (flat ops1 :: texts), c, L, ds, d, ds', after, sh, part.
    split; [reflexivity|]. split; [now constructor|]. split; [exact F2|]. split; [exact C|].
    rewrite !flat_app, E. unfold under. cbn [map List.concat]. rewrite <- !app_assoc. reflexivity.
Qed.

Lemma sections_sized t : sized t -> Forall sized_section (sections t).
Proof.
  induction t as [c L m items IH] using tree_ind2. intros [S1 S2]. cbn [sections subtrees all_options] in *.
  inversion S1 as [|? ? [HL _] S1']; subst. cbn in HL. constructor.
  - split; [exact HL|]. cbn [snd]. apply Forall_forall. intros d I. apply in_flat_map in I as (i & Hi & I).
    rewrite Forall_forall in S2. apply S2. apply in_flat_map. exists i. split; [exact Hi|]. destruct i; [exact I|destruct I].
  - apply Forall_forall. intros x I. apply in_flat_map in I as (i & Hi & I). destruct i as [|t]; [destruct I|].
    rewrite Forall_forall in IH. specialize (IH _ Hi). cbn in IH. rewrite Forall_forall in IH. apply IH; [|exact I]. split.
    + apply Forall_forall. intros g Ig. rewrite Forall_forall in S1'. apply S1'. apply in_flat_map. now exists (inr t).
    + apply Forall_forall. intros d Id. rewrite Forall_forall in S2. apply S2. apply in_flat_map. now exists (inr t).
Qed.

(** ** Without assertions *)

(** The second does the same as the first, unless an assertion fails in it. *)
Definition relaxes A (a b : writer A) : Prop := (exists ops, a = (ops, Undef UB_assert)) \/ a = b.

Lemma relaxes_bind A B (a b : writer A) (f g : A -> writer B) : relaxes a b -> (forall x, relaxes (f x) (g x)) -> relaxes (wbind a f) (wbind b g).
Proof.
  intros [(ops & ->)| ->] H; [left; now exists ops|]. destruct b as [ops [x| | |]]; cbn; [|now right..].
  destruct (H x) as [(o & ->)| ->]; [left; now exists (ops ++ o)|now right].
Qed.

Lemma relaxes_refl A (a : writer A) : relaxes a a.
Proof. now right. Qed.

Lemma relaxes_assert b : relaxes (wlift (assert_ false b)) (wlift (assert_ true b)).
Proof. destruct b; [now right|]. left. now exists []. Qed.

Lemma relaxes_paragraph par indent L : relaxes (wformat_paragraph false par indent L) (wformat_paragraph true par indent L).
Proof.
  unfold wformat_paragraph. apply relaxes_bind; [apply relaxes_assert|]. intros _. apply relaxes_bind; [|intros; apply relaxes_refl].
  destruct (find_char c_tab par); [|apply relaxes_refl]. destruct (Nat.ltb _ _); [apply relaxes_refl|].
  destruct (Z.ltb _ _); [apply relaxes_refl|]. left. now exists [].
Qed.

Lemma relaxes_paragraphs pars width L : relaxes (wformat_paragraphs false pars width L) (wformat_paragraphs true pars width L).
Proof.
  induction pars as [|par pars IH]; [apply relaxes_refl|]. cbn [wformat_paragraphs]. apply relaxes_bind; [apply relaxes_paragraph|].
  intros _. apply relaxes_bind; [apply relaxes_refl|]. intros _. exact IH.
Qed.

Lemma relaxes_one d width L : relaxes (wformat_one false d width L) (wformat_one true d width L).
Proof.
  unfold wformat_one. apply relaxes_bind; [apply relaxes_refl|]. intros ss. apply relaxes_bind; [apply relaxes_refl|]. intros _.
  destruct (is_empty (od_text d)); [apply relaxes_refl|]. apply relaxes_bind; [apply relaxes_refl|]. intros _.
  unfold wformat_description. apply relaxes_bind; [apply relaxes_assert|]. intros _. apply relaxes_bind; [apply relaxes_assert|].
  intros _. apply relaxes_paragraphs.
Qed.

Lemma relaxes_options opts width L : relaxes (wprint_options false opts width L) (wprint_options true opts width L).
Proof.
  induction opts as [|[d []] opts IH]; [apply relaxes_refl|exact IH|]. cbn [wprint_options]. apply relaxes_bind; [apply relaxes_one|].
  intros _. apply relaxes_bind; [apply relaxes_refl|]. intros _. exact IH.
Qed.

Lemma relaxes_print od : forall width, relaxes (wprint false od width) (wprint true od width).
Proof.
  induction od as [c L m opts groups IH] using ods_ind2. intros width. rewrite !wprint_eq.
  apply relaxes_bind; [apply relaxes_refl|]. intros _. apply relaxes_bind; [apply relaxes_refl|]. intros w.
  apply relaxes_bind; [apply relaxes_options|]. intros _. induction IH as [|g gs Hg _ IH]; [apply relaxes_refl|].
  cbn [wprint_all]. apply relaxes_bind; [apply relaxes_refl|]. intros _. apply relaxes_bind; [apply Hg|]. intros _. exact IH.
Qed.

Lemma wprint_throw_any ndebug od width e : print false od width = Throw e -> wprint ndebug od width = wprint false od width.
Proof.
  intros H. destruct ndebug; [|reflexivity]. destruct (relaxes_print od width) as [(ops & E)|E]; [|now symmetry].
  rewrite <- den_print, E in H. discriminate.
Qed.

Lemma wprint_default ndebug ods W : get_option_column_width ods = Ok W -> W <> 0%Z -> wprint ndebug ods 0 = wprint ndebug ods W.
Proof.
  destruct ods as [c L m opts groups]. intros H N. rewrite !wprint_eq, H. cbn [Z.eqb]. apply Z.eqb_neq in N. now rewrite N.
Qed.

Lemma width_no_throw od : forall e, get_option_column_width od <> Throw e.
Proof.
  assert (M : forall ds w e, max_column w ds <> Throw e).
  { induction ds as [|d ds IH]; intros w e H; [discriminate|]. cbn [max_column] in H. destruct (first_column d) as [ss| | |] eqn:E; cbn [bind] in H; try discriminate.
    - exact (IH _ _ H).
    - unfold first_column, format_name in E. destruct (negb _), (od_longs d); discriminate. }
  induction od as [c L m opts groups IH] using ods_ind2. intros e. rewrite width_eq.
  destruct (max_column 23 (map fst opts)) as [w| | |] eqn:E; cbn [bind]; try discriminate; [|intros [= ->]; exact (M _ _ _ E)].
  assert (G : forall e, group_widths w groups <> Throw e).
  { clear - IH. revert w. induction IH as [|g gs Hg _ IH]; intros w e; [discriminate|]. cbn [group_widths].
    destruct (get_option_column_width g) as [wg| | |] eqn:E; cbn [bind]; try discriminate; [apply IH|]. intros _. exact (Hg _ eq_refl). }
  destruct (group_widths w groups) eqn:E2; cbn [bind]; try discriminate. intros _. exact (G _ eq_refl).
Qed.

(** ** The first thing written *)

Definition starts (m : writer unit) (first : str) : Prop := exists ops, fst m = Insert first :: ops.

Lemma starts_bind A (m : writer A) (k : A -> writer unit) first : (exists ops, fst m = Insert first :: ops) -> starts (wbind m k) first.
Proof.
  destruct m as [o [a| | |]]; cbn; intros (ops & ->); [|unfold starts; cbn; eauto..]. destruct (k a) as [o2 r]. exists (ops ++ o2). reflexivity.
Qed.

Lemma starts_first t ods ndebug width first : built t ods -> width <> 0%Z -> first_piece t first -> starts (wprint ndebug ods width) first.
Proof.
  intros B Hw H. rewrite (proj1 (wprint_sections ndebug Hw) _ _ B).
  destruct H as [N|L d ds rest col E C|L s rest E].
  - destruct t as [c L m items]. cbn in N |- *. destruct c as [|c0 c]; [congruence|].
    unfold wheading. cbn [is_empty]. apply starts_bind. unfold wbind, write.
    match goal with |- exists _, fst (let (_, _) := ?x in _) = _ => destruct x as [o r] end. cbn. eauto.
  - rewrite E. cbn [wlist wsection]. apply first_column_iff in C.
    change (write (wheading [])) with (wlift (Ok tt)). rewrite wlift_tt. cbn [map wprint_options].
    apply starts_bind. apply starts_bind. unfold wformat_one. rewrite C, wlift_Ok. apply starts_bind. exists []. reflexivity.
  - rewrite E. cbn [wlist wsection]. change (write (wheading [])) with (wlift (Ok tt)). rewrite !wlift_tt. cbn [map wprint_options]. rewrite ?wlift_tt. cbn [wsections]. apply starts_bind. exists []. reflexivity.
Qed.

Lemma first_piece_prefix t ods ndebug width first text : built t ods -> width <> 0%Z -> first_piece t first ->
  print ndebug ods width = Ok text -> exists rest, text = first ++ rest.
Proof.
  intros B Hw H E. destruct (starts_first ndebug B Hw H) as (ops & S). rewrite <- den_print in E.
  destruct (wprint ndebug ods width) as [o [[]| | |]]; cbn in *; try discriminate. injection E as <-. subst o.
  exists (flat ops). reflexivity.
Qed.

Lemma nothing_printed t ods ndebug width L : built t ods -> width <> 0%Z -> sections t = [([], L, [])] -> wprint ndebug ods width = ([], Ok tt).
Proof. intros B Hw E. rewrite (proj1 (wprint_sections ndebug Hw) _ _ B), E. reflexivity. Qed.

Lemma padded_justified s t : justified s t (padded (os_width s) (os_fill s) (os_left s) t).
Proof.
  unfold justified, padded. set (n := Z.to_nat _). exists (repeat (os_fill s) n). split; [|split].
  - clear. induction n; cbn; auto.
  - unfold len. rewrite repeat_length. unfold n. lia.
  - now destruct (os_left s).
Qed.
