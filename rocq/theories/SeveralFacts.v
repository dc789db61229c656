(** Proofs about sources with different descriptions. *)

From Coq Require Import List Ascii String NArith ZArith Bool Arith Lia Sorting.Sorted.
From Verif Require Import Base Errors Spec BaseFacts Values OptDesc SpecLookup LookupFacts Positional Cmdline
  Parsers VarMap SpecCmdline SpecStore StoreFacts SemFacts SpecEnd EndFacts SpecSeveral.
From Verif Require PropStore.
Import ListNotations.

Lemma key_unique d k name : k <> [] -> name <> [] -> is_key d [] k -> is_key d [] name -> k = name.
Proof.
  intros Hk Hne. unfold is_key. intros [(f1 & r1 & E1 & _ & ->)|[(f1 & r1 & _ & _ & ->)|[E1 ->]]]; [|congruence|];
    (intros [(f2 & r2 & E2 & _ & ->)|[(f2 & r2 & _ & _ & ->)|[E2 ->]]]; [|congruence|]); congruence.
Qed.

Section Several.
Variable lexical_cast : nat -> str -> option Z.
Variable utf8_to_local : str -> outcome str.
Variables (d : option_description) (name : str) (tv : typed_value) (addr : nat).
Hypothesis Hne : name <> [].
Hypothesis Hsem : od_sem d = typed lexical_cast utf8_to_local tv.
Hypothesis Hto : tv_store_to tv = Some addr.

Lemma several_writes h vm ev :
  stores vm_new h vm -> notify vm = (ev, Ok tt) -> one_meaning h d name -> sole_owner h d addr ->
  match entry vm name with
  | Some v => exists x, vv_value v = Some x /\ written addr ev = [x]
  | None => written addr ev = []
  end.
Proof.
  intros H Hn [Hkd Hm] Hown.
  destruct (stores_sorted _ _ _ H) as [Hs _]; [constructor|constructor|].
  unfold notify in Hn. destruct (check_required (vm_required vm) (vm_map vm)) as [[]|e|u|]; try discriminate.
  apply run_notify_spec in Hn. destruct Hn as [(_ & evs & Hf2 & ->)|(m1 & k & v & m2 & s & evs & last & _ & _ & _ & _ & Hr & _)];
    [|congruence].
  destruct (entries_lemma vm Hs) as [Hso Hin].
  assert (Hsrc : forall k v, k <> [] -> entry vm k = Some v -> exists p u ds d', In (p, u) h /\ pr_desc p = Some ds /\ In d' ds
    /\ vv_sem v = Some (od_sem d') /\ (d' = d -> k = name) /\ (k = name -> d' = d)).
  { intros k v Hk Hv. destruct (stores_origin _ _ _ _ _ H Hk Hv) as [E|(p & u & ds' & d' & Hi & Eds & Hd' & Hsv & Hcase)]; [discriminate|].
    exists p, u, ds', d'. split; [assumption|]. split; [assumption|]. split; [assumption|]. split; [assumption|].
    destruct (Hm p u ds' Hi Eds) as (M1 & M2 & M3). split.
    - intros ->. destruct Hcase as [[Hmk Hfk]|Hkey]; [now apply M3|]. eapply key_unique; eassumption.
    - intros ->. destruct Hcase as [[_ Hfk]|Hkey]; auto. }
  assert (Hoth : forall k v ev, In (k, v) (vm_map vm) -> k <> name -> notifies (k, v) ev -> written addr ev = []).
  { intros k v ev Hi Hk Hnk. apply Hin in Hi. destruct k as [|c k].
    { rewrite (stores_nil _ _ _ H) in Hi. discriminate. }
    destruct (Hsrc (c :: k) v) as (p & u & ds & d' & Hp & Eds & Hd' & Hsv & Hx & _); [discriminate|auto|].
    unfold notifies in Hnk. cbn [snd] in Hnk. rewrite Hsv in Hnk. eapply (Hown p u ds Hp Eds); [exact Hd'| |exact Hnk].
    intros E. apply Hk. now apply Hx. }
  destruct (entry vm name) as [v|] eqn:Ev.
  - destruct (Hsrc name v Hne Ev) as (p & u & ds & d' & _ & _ & _ & Hsv & _ & Hx). rewrite (Hx eq_refl) in Hsv.
    destruct (written_one addr (vm_map vm) name v evs Hso) as (ev0 & Hn0 & Hw); auto.
    { now apply Hin. }
    unfold notifies in Hn0. cbn [snd] in Hn0. rewrite Hsv in Hn0. eapply notify_writes in Hn0; [|eassumption|eassumption].
    destruct Hn0 as (x & Ex & Hwx). exists x. split; auto. congruence.
  - apply (written_none addr (vm_map vm) evs Hf2). intros k v ev Hi. apply Hoth; auto.
    intros ->. apply Hin in Hi. congruence.
Qed.

Lemma in_described h d' : In d' (described h) <-> known h d'.
Proof.
  unfold described, known. rewrite in_concat. split.
  - intros (l & Hl & Hd). apply in_map_iff in Hl as ([p u] & E & Hi). cbn [fst] in E.
    destruct (pr_desc p) as [ds|] eqn:Ep; subst l; [|contradiction]. eauto 6.
  - intros (p & u & ds & Hi & E & Hd). exists ds. split; [|assumption]. apply in_map_iff. exists (p, u). cbn [fst]. now rewrite E.
Qed.

Lemma several_default h vm : stores vm_new h vm -> one_meaning h d name -> never_mentioned h name ->
  (known h d -> entry vm name = match tv_default tv with Some (x, _) => Some (mk_vv (Some x) true (Some (od_sem d))) | None => None end)
  /\ (~ known h d -> entry vm name = None).
Proof.
  intros H [Hk Hm] Hnm. pose proof (PropStore.C38_unmentioned_has_default h vm name H Hne Hnm) as He.
  assert (Only : forall d', In d' (described h) -> is_key d' [] name -> d' = d).
  { intros d' Hd' Hk'. apply in_described in Hd' as (p & u & ds & Hi & E & Hd). now apply (proj1 (Hm p u ds Hi E)). }
  assert (Hdef : vs_default (od_sem d) = match tv_default tv with Some (x, _) => Some (Some x) | None => None end).
  { rewrite Hsem. cbn [typed vs_default]. now destruct (tv_default tv) as [[x t]|]. }
  inversion He as [ds1 d1 ds2 def Eds Hk1 Hd1 _ Ee|Hall Ee].
  - assert (d1 = d) as -> by (apply Only; [rewrite Eds; apply in_or_app; right; now left|assumption]).
    rewrite Hdef in Hd1. split.
    + intros _. destruct (tv_default tv) as [[x t]|]; [|discriminate]. now injection Hd1 as <-.
    + intros N. destruct N. apply in_described. rewrite Eds. apply in_or_app. right. now left.
  - split; [|reflexivity]. intros K. apply in_described in K. rewrite Forall_forall in Hall. rewrite (Hall d K Hk) in Hdef.
    now destruct (tv_default tv) as [[x t]|].
Qed.
End Several.

(** Entries stay. *)
Lemma stores_keeps_entry vm h vm' k : stores vm h vm' -> k <> [] -> entry vm k <> None -> entry vm' k <> None.
Proof.
  intros H Hk. induction H as [|vm p u vm1 h vm2 Hs _ IH]; auto. intros Hv. apply IH.
  destruct (store_entry _ _ _ _ k Hs Hk) as (ds & Eds & [(_ & _ & [(v' & E1 & E2)|[E1 E2]])|(Ho & _ & d & a & Hd & _ & E & _)]); congruence.
Qed.



Lemma meaning_app h1 h2 d name : one_meaning (h1 ++ h2) d name -> one_meaning h1 d name.
Proof. intros [A B]. split; [assumption|]. intros p u ds Hi. apply (B p u). apply in_or_app. now left. Qed.

Lemma owner_app h1 h2 d addr : sole_owner (h1 ++ h2) d addr -> sole_owner h1 d addr.
Proof. intros B p u ds Hi. apply (B p u). apply in_or_app. now left. Qed.
