(** Splitting wide Unix command lines. *)

From Coq Require Import List Ascii String NArith Bool Arith Lia.
From Verif Require Import Base Errors Spec BaseFacts Convert SpecConvert ConvertFacts SplitUnix SpecSplit SplitFacts WideFacts.
Import ListNotations.

Definition ascii_chars (l : str) : Prop := Forall (fun c => N_of_ascii c < 128)%N l.

Lemma wide_in_low c l : existsb (N.eqb (N_of_ascii c)) (map N_of_ascii l) = existsb (char_eqb c) l.
Proof.
  induction l as [|x l IH]; cbn [map existsb]; auto. rewrite IH. f_equal.
  destruct (char_eqb_spec c x) as [->|H]; [apply N.eqb_refl|]. apply N.eqb_neq. intros E. apply H.
  rewrite <- (ascii_N_embedding c), <- (ascii_N_embedding x). now rewrite E.
Qed.

Lemma wide_in_high w l : ascii_chars l -> (128 <= w)%N -> existsb (N.eqb w) (map N_of_ascii l) = false.
Proof.
  intros H Hw. induction H as [|x l Hx _ IH]; cbn [map existsb]; auto. rewrite IH, orb_false_r. apply N.eqb_neq. lia.
Qed.

Lemma byte_in_high c l : ascii_chars l -> (128 <= N_of_ascii c)%N -> existsb (char_eqb c) l = false.
Proof. intros H Hw. rewrite <- wide_in_low. now apply wide_in_high. Qed.

Lemma bytes_plain sep quote esc bytes : ascii_chars sep -> ascii_chars quote -> ascii_chars esc ->
  Forall (fun x => 128 <= N_of_ascii x)%N bytes -> forall s q cur,
  escaped_list_loop char_eqb "n"%char c_nl sep quote esc (bytes ++ s) q cur
  = escaped_list_loop char_eqb "n"%char c_nl sep quote esc s q (cur ++ bytes).
Proof.
  intros Hs Hq He H. induction H as [|x bytes Hx _ IH]; intros s q cur; cbn [app escaped_list_loop].
  - now rewrite app_nil_r.
  - rewrite !byte_in_high by auto. rewrite IH, <- app_assoc. reflexivity.
Qed.

(** The wide result is the wide form of the narrow one. *)
Inductive same_result : outcome (list wstr) -> outcome (list str) -> Prop :=
| sr_ok ws ss : Forall2 utf8_text ws ss -> same_result (Ok ws) (Ok ss)
| sr_throw e : same_result (Throw e) (Throw e).

Lemma loop_wide sep quote esc : ascii_chars sep -> ascii_chars quote -> ascii_chars esc ->
  forall n w s q wcur cur, List.length w <= n -> utf8_text w s -> utf8_text wcur cur ->
  same_result
    (escaped_list_loop N.eqb (N_of_ascii "n"%char) (N_of_ascii c_nl)
       (map N_of_ascii sep) (map N_of_ascii quote) (map N_of_ascii esc) w q wcur)
    (escaped_list_loop char_eqb "n"%char c_nl sep quote esc s q cur).
Proof.
  intros Hs Hq He. induction n as [|n IH]; intros w s q wcur cur Hn Hw Hc.
  { destruct w; [|cbn in Hn; lia]. inversion Hw; subst. cbn. constructor. auto. }
  destruct Hw as [|w c ws s Hw Hws]; [cbn; constructor; auto|]. cbn in Hn.
  destruct (utf8_bytes w c Hw) as [(x & -> & <- & Hx)|[Hb Hx]].
  - cbn [app escaped_list_loop]. rewrite !wide_in_low.
    assert (Hcx : utf8_text (wcur ++ [N_of_ascii x]) (cur ++ [x])) by (apply utf8_text_app; auto; now apply utf8_text_char).
    destruct (existsb (char_eqb x) esc).
    + destruct Hws as [|w2 c2 ws s Hw2 Hws]; [constructor|]. cbn in Hn.
      destruct (utf8_bytes w2 c2 Hw2) as [(y & -> & <- & Hy)|[Hb Hy]].
      * cbn [app]. rewrite !wide_in_low.
        assert (Hny : N.eqb (N_of_ascii y) (N_of_ascii "n"%char) = char_eqb y "n"%char).
        { pose proof (wide_in_low y ["n"%char]) as E. cbn [map existsb] in E. now rewrite !orb_false_r in E. }
        rewrite Hny. destruct (char_eqb y "n"%char).
        -- apply IH; auto; [lia|]. apply utf8_text_app; auto. now apply utf8_text_char.
        -- destruct (existsb (char_eqb y) quote || existsb (char_eqb y) sep || existsb (char_eqb y) esc); [|constructor].
           apply IH; auto; [lia|]. apply utf8_text_app; auto. now apply utf8_text_char.
      * assert (Hne : c2 <> []) by (destruct Hw2; discriminate). destruct c2 as [|y c2]; [contradiction|]. cbn [app].
        assert (Hy' : (128 <= N_of_ascii y)%N) by (now inversion Hb).
        rewrite !wide_in_high by auto. rewrite !byte_in_high by auto. cbn [orb].
        assert (E : N.eqb w2 (N_of_ascii "n"%char) = false) by (apply N.eqb_neq; cbn; lia). rewrite E.
        assert (E' : char_eqb y "n"%char = false).
        { destruct (char_eqb_spec y "n"%char) as [->|]; auto. cbn in Hy'. lia. }
        rewrite E'. constructor.
    + destruct (existsb (char_eqb x) sep).
      * destruct q; [apply IH; auto; lia|].
        pose proof (IH ws s false [] [] ltac:(lia) Hws ut_nil) as G.
        match type of G with same_result ?a ?b =>
          change (same_result (let* rest := a in Ok (wcur :: rest)) (let* rest := b in Ok (cur :: rest))) end.
        destruct G as [ws' ss' F|e]; cbn [bind]; constructor. now constructor.
      * destruct (existsb (char_eqb x) quote); apply IH; auto; lia.
  - rewrite (bytes_plain _ _ _ _ Hs Hq He Hb). cbn [escaped_list_loop]. rewrite !wide_in_high by auto.
    apply IH; auto; [lia|]. apply utf8_text_app; auto. rewrite <- (app_nil_r c). constructor; auto. constructor.
Qed.

Lemma split_unix_wide sep quote esc w s : ascii_chars sep -> ascii_chars quote -> ascii_chars esc -> utf8_text w s ->
  same_result (wsplit_unix_gen w (map N_of_ascii sep) (map N_of_ascii quote) (map N_of_ascii esc)) (split_unix_gen s sep quote esc).
Proof.
  intros Hs Hq He H. unfold wsplit_unix_gen, split_unix_gen, split_unix_detail, escaped_list_tokens.
  destruct H as [|w c ws s Hw Hws]; [cbn; constructor; constructor|].
  assert (Hne : c <> []) by (destruct Hw; discriminate). destruct c as [|x c]; [contradiction|].
  pose proof (loop_wide sep quote esc Hs Hq He _ _ _ false [] [] (le_n _) (ut_cons w (x :: c) ws s Hw Hws) ut_nil) as H.
  cbn [app] in H |- *.
  match type of H with same_result ?a ?b => change (same_result
    (let* toks := a in Ok (filter (fun t => match t with [] => false | _ => true end) toks))
    (let* toks := b in Ok (filter (fun t => match t with [] => false | _ => true end) toks))) end.
  destruct H as [ws' ss' F|e]; cbn [bind]; [|constructor]. constructor.
  induction F as [|a b ws' ss' Hab _ IH]; cbn [filter]; auto.
  destruct Hab as [|w0 c0 ws0 s0 Hw0 Hws0]; auto. assert (Hne0 : c0 <> []) by (destruct Hw0; discriminate).
  destruct c0; [contradiction|]. constructor; auto. now constructor.
Qed.
