(** C116: who deletes value semantics. *)

From Coq Require Import List Ascii String NArith ZArith Bool Arith Lia.
From Verif Require Import Base BaseFacts Errors Spec Values OptDesc Owners SpecOwners OwnersFacts Witness.
Import ListNotations.
Local Open Scope string_scope.

(** A program that gives each value semantic away once never has one deleted twice or used after its deletion, whatever it copies,
    stores, erases and destroys, and in whatever order. *)
Theorem C116_safe cs : hands_over [] cs -> own_run owners_start cs <> Undef UB_dangling.
Proof. intros H. exact (proj1 (orderly_run cs [] owners_start orderly_start H)). Qed.
Print Assumptions C116_safe.

(** At every moment of such a program a value semantic that was given to an option has been deleted if and only if no description
    and no map refers to it any more. *)
Theorem C116_deleted cs w g s : hands_over [] cs -> own_run owners_start cs = Ok w -> owns w g s ->
  (deleted w s <-> ~ refers w g).
Proof.
  intros H E Ho. destruct (proj2 (orderly_run cs [] owners_start orderly_start H) w E) as (spent & O). split.
  - intros D R. exact (or_alive _ _ O g s R Ho D).
  - apply (so_gone _ (sound_run _ _ _ sound_start E) g s Ho).
Qed.
Print Assumptions C116_deleted.

(** No leak of what was given away: when all descriptions and maps are gone, so are the value semantics, in every program. *)
Theorem C116_end cs w s : own_run owners_start cs = Ok w -> all_over w -> gives cs s -> deleted w s.
Proof.
  intros E A G. pose proof (proj1 (run_origin _ _ _ E) s) as I. assert (Hs : In s (ow_groups w)) by (apply I; now right).
  apply In_nth_error in Hs. destruct Hs as (g & Hg). apply (so_gone _ (sound_run _ _ _ sound_start E) g s Hg).
  intros (h & l & n & Hh & _). exact (A h l Hh).
Qed.
Print Assumptions C116_end.

(** But a value semantic that is given to no option is only deleted by the program. *)
Theorem C116_leak cs w s : own_run owners_start cs = Ok w -> deleted w s -> gives cs s \/ In (ODelete s) cs.
Proof.
  intros E D. destruct (proj2 (run_origin _ _ _ E) s D) as [[]|[[]|H]]. exact H.
Qed.
Print Assumptions C116_leak.

(** A stored value keeps its value semantic alive: [notify] may be called after the description is gone. *)
Theorem C116_outlives cs m h name cs' w :
  hands_over [] (cs ++ OStore m h name :: cs') -> Forall (fun c => changes m c = false) cs' ->
  own_run owners_start (cs ++ OStore m h name :: cs') = Ok w ->
  own_run owners_start ((cs ++ OStore m h name :: cs') ++ [OWork m name]) = Ok w.
Proof.
  intros H F E. rewrite run_app, E. cbn [bind own_run].
  destruct (proj2 (orderly_run _ [] owners_start orderly_start H) w E) as (spent & O).
  pose proof (sound_run _ _ _ sound_start E) as S. rewrite run_app in E. apply bind_Ok in E. destruct E as (w0 & _ & E).
  cbn [own_run] in E. apply bind_Ok in E. destruct E as (w1 & E1 & E2). apply store_entry in E1. destruct E1 as (l & g & N & G).
  assert (L : m < List.length (ow_holders w1)) by (apply nth_error_Some; congruence).
  assert (N' : nth_error (ow_holders w) m = Some (Some l)) by now rewrite (run_leaves _ _ _ _ E2 F L).
  cbn [own_step]. unfold refs_of. rewrite N'. cbn [bind]. rewrite G. cbn [bind].
  assert (R : refers w g).
  { destruct (group_cases l name) as [X|(g' & k & X & Hin)]; [congruence|]. rewrite X in G. injection G as ->. exists m, l, k. auto. }
  pose proof (owns_of w g (or_lt _ _ O g R)) as Ow. pose proof (or_alive _ _ O g _ R Ow) as Al.
  unfold touch. assert (M : nth g (ow_groups w) 0 < ow_made w) by (apply (so_made _ S), nth_In, (or_lt _ _ O g R)).
  apply Nat.ltb_lt in M. rewrite M. destruct (existsb (Nat.eqb (nth g (ow_groups w) 0)) (ow_gone w)) eqn:X; [|reflexivity].
  exfalso. apply Al. apply mem_In, X.
Qed.
Print Assumptions C116_outlives.

(** Who refers to what: a declaration makes a new owner, a copy shares the owners of the original, and so do the including
    description and the map. A stored value replaces the one of the same name. *)
Theorem C116_references w w' :
  (forall h name s, own_step w (ODeclare h name s) = Ok w' ->
     exists l g, refs w h l /\ refs w' h (l ++ [(name, g)]) /\ owns w' g s /\ forall t, ~ owns w g t)
  /\ (forall h, own_step w (OCopy h) = Ok w' -> exists l, refs w h l /\ refs w' (List.length (ow_holders w)) l)
  /\ (forall h k, own_step w (OInclude h k) = Ok w' -> exists l l', refs w h l /\ refs w k l' /\ refs w' h (l ++ l'))
  /\ (forall m h name, own_step w (OStore m h name) = Ok w' ->
     exists l e e' g, refs w h l /\ first_of l name g /\ refs w m e /\ refs w' m e'
       /\ forall k x, In (k, x) e' <-> (In (k, x) e /\ k <> name) \/ (k = name /\ x = g))
  /\ (forall m name, own_step w (OErase m name) = Ok w' ->
     exists e e', refs w m e /\ refs w' m e' /\ forall k x, In (k, x) e' <-> In (k, x) e /\ k <> name)
  /\ (forall m, own_step w (OClear m) = Ok w' -> refs w' m [])
  /\ (forall h l, own_step w (OEnd h) = Ok w' -> ~ refs w' h l).
Proof.
  cbn [own_step]. split; [|split; [|split; [|split; [|split; [|split]]]]].
  - intros h name s E. apply bind_Ok in E. destruct E as (u & _ & E). apply bind_Ok in E. destruct E as (l & R & E). injection E as <-.
    apply refs_of_Ok in R. exists l, (List.length (ow_groups w)). split; [exact R|]. split; [exact (set_here _ _ _ _ R)|]. split.
    + unfold owns. cbn. rewrite nth_error_app2 by apply le_n. now rewrite Nat.sub_diag.
    + intros t O. apply owns_lt in O. lia.
  - intros h E. apply bind_Ok in E. destruct E as (l & R & E). apply refs_of_Ok in R. apply rehold_Ok in E. cbv zeta in E. destruct E as (-> & _).
    exists l. split; [exact R|]. unfold refs. cbn [ow_holders]. rewrite nth_error_app2 by apply le_n. now rewrite Nat.sub_diag.
  - intros h k E. apply bind_Ok in E. destruct E as (l & R & E). apply bind_Ok in E. destruct E as (l' & R' & E). apply refs_of_Ok in R, R'.
    destruct (Nat.eqb h k && negb (is_empty l)); [discriminate|]. apply rehold_Ok in E. cbv zeta in E. destruct E as (-> & _).
    exists l, l'. split; [exact R|]. split; [exact R'|]. exact (set_here _ _ _ _ R).
  - intros m h name E. apply bind_Ok in E. destruct E as (l & R & E). apply bind_Ok in E. destruct E as (g & G & E). apply bind_Ok in E.
    destruct E as (u & _ & E). apply bind_Ok in E. destruct E as (e & R' & E). apply refs_of_Ok in R, R'.
    apply rehold_Ok in E. cbv zeta in E. destruct E as (-> & _). exists l, e, (but_for name e ++ [(name, g)])%list, g.
    split; [exact R|]. split; [exact (group_first _ _ _ G)|]. split; [exact R'|]. split; [exact (set_here _ _ _ _ R')|].
    intros k x. rewrite in_app_iff, but_for_In. cbn [In]. split; intros [H|H].
    + now left.
    + right. destruct H as [[= <- <-]|[]]. auto.
    + now left.
    + right. destruct H as (-> & ->). now left.
  - intros m name E. apply bind_Ok in E. destruct E as (l & R & E). apply refs_of_Ok in R. apply rehold_Ok in E. cbv zeta in E.
    destruct E as (-> & _). exists l, (but_for name l). split; [exact R|]. split; [exact (set_here _ _ _ _ R)|]. intros k x. apply but_for_In.
  - intros m E. apply bind_Ok in E. destruct E as (l & R & E). apply refs_of_Ok in R. apply rehold_Ok in E. cbv zeta in E.
    destruct E as (-> & _). exact (set_here _ _ _ _ R).
  - intros h l E H. apply bind_Ok in E. destruct E as (l' & R & E). apply refs_of_Ok in R. apply rehold_Ok in E. cbv zeta in E.
    destruct E as (-> & _). unfold refs in H. cbn [ow_holders] in H. rewrite (set_here _ _ _ _ R) in H. discriminate.
Qed.
Print Assumptions C116_references.

(** A value semantic given to two options: a program that gets so far can destroy the descriptions of at most one of them. *)
Theorem C116_twice cs w g1 g2 s : own_run owners_start cs = Ok w -> owns w g1 s -> owns w g2 s -> g1 <> g2 ->
  refers w g1 \/ refers w g2.
Proof. intros E. exact (so_two _ (sound_run _ _ _ sound_start E) g1 g2 s). Qed.
Print Assumptions C116_twice.

(** It is wrong that programs may do as they like with the pointer: to give it to two options, to delete it after it was given to
    one, and to call a setter after the description is gone is undefined. *)
Theorem C116_any_program_refuted :
  ~ (forall cs, own_run owners_start cs <> Undef UB_dangling).
Proof.
  intros H. apply (H [ONew; OHolder; ODeclare 0 $"in" 0; OHolder; ODeclare 1 $"out" 0; OEnd 1; OEnd 0]). reflexivity.
Qed.
Print Assumptions C116_any_program_refuted.

Example C116_ex_delete : own_run owners_start [ONew; OHolder; ODeclare 0 $"in" 0; ODelete 0; OEnd 0] = Undef UB_dangling.
Proof. reflexivity. Qed.

Example C116_ex_setter : own_run owners_start [ONew; OHolder; ODeclare 0 $"in" 0; OEnd 0; OSet 0] = Undef UB_dangling.
Proof. reflexivity. Qed.

(** Two options, a description that includes another and a copy, a map that outlives them all; one value semantic is never given. *)
Definition ex_calls : list own_call :=
  [ONew; OSet 0; ONew; ONew; OHolder; ODeclare 0 $"in" 0; OHolder; ODeclare 1 $"out" 1; OInclude 1 0; OEnd 0; OCopy 1;
   OHolder; OStore 3 2 $"in"].

Example C116_ex : hands_over [] (ex_calls ++ [OEnd 1; OEnd 2])
  /\ own_run owners_start (ex_calls ++ [OEnd 1; OEnd 2])
     = Ok (mk_ow [1] 3 [0; 1] [None; None; None; Some [($"in", 0)]])
  /\ Forall (fun c => changes 3 c = false) [OEnd 1; OEnd 2]
  /\ own_run owners_start (ex_calls ++ [OEnd 1; OEnd 2; OWork 3 $"in"; OClear 3; OEnd 3])
     = Ok (mk_ow [0; 1] 3 [0; 1] [None; None; None; None]).
Proof.
  split; [|split; [reflexivity|split; [repeat constructor|reflexivity]]].
  cbn. repeat split; intros H; repeat (destruct H as [H|H]; [discriminate H|]); exact H.
Qed.

Example C116_ex_twice : exists w, own_run owners_start [ONew; OHolder; ODeclare 0 $"in" 0; OHolder; ODeclare 1 $"out" 0; OEnd 1] = Ok w
  /\ owns w 0 0 /\ owns w 1 0 /\ refers w 0.
Proof.
  eexists. split; [reflexivity|]. split; [reflexivity|]. split; [reflexivity|]. exists 0, [($"in", 0)], $"in". split; [reflexivity|now left].
Qed.
