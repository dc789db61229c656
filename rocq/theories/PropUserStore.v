(** C98: semantics of the user, with a state and exceptions of their own, while a source is stored *)

From Coq Require Import List Ascii String NArith ZArith Bool Arith Lia.
From Verif Require Import Base Errors Spec BaseFacts Values OptDesc Cmdline Parsers VarMap SpecStore StoreFacts UserStore SpecUserStore UserStoreFacts Samples.
Import ListNotations.

(** C98. [store] calls [parse] once for each option of the source that is to be stored, in the order of the source, with the tokens of
    the source and what the calls before have left for that name; then [apply_default] once for each option of the description, in
    order, for which there is no value; and nothing else.  The first call that does not return is the last. *)
Theorem C98_calls : forall S (code : user_code S) p ds vm utf8 s s' vm' r,
  pr_desc p = Some ds -> ustore code p vm utf8 s = (s', vm', r) ->
  exists parses defaults later, made code utf8 s (parses ++ defaults) s' /\ carried_out ds p vm parses defaults later.
Proof.
  intros S code p ds vm utf8 s s' vm' r Hp H.
  destruct (ustore_spec _ _ _ _ _ _ _ _ _ Hp H) as (P & D & L & H1 & H2 & _). exists P, D, L. auto.
Qed.
Print Assumptions C98_calls.

Lemma run {S} (code : user_code S) p ds vm utf8 s s' P D L :
  pr_desc p = Some ds -> made code utf8 s (P ++ D) s' -> carried_out ds p vm P D L ->
  exists vm' r, ustore code p vm utf8 s = (s', vm', r)
    /\ ((L = [] /\ Forall returned P /\ defaults_ending D r /\ filled ds vm vm' P D /\ decided ds vm vm' P
         /\ (r = Ok tt -> vm_required vm' = vm_required (fst (store (mk_parsed [] (Some ds) (pr_prefix p)) vm utf8))))
        \/ (D = [] /\ r <> Ok tt /\ vm_final vm' = vm_final vm /\ vm_required vm' = vm_required vm
            /\ (exists taken, due p vm = taken ++ L /\ Forall2 (call_for ds) taken P /\ ending ds (pr_prefix p) P taken L r)
            /\ (forall name, ~ In name (parsed_names P) -> entry vm' name = entry vm name)
            /\ (settled r -> forall name, In name (parsed_names P) -> exists sem, entry vm' name = Some (mk_vv (latest vm P name) false sem))))
    /\ (forall T (code' : user_code T) t t', made code' utf8 t (P ++ D) t' -> ustore code' p vm utf8 t = (t', vm', r)).
Proof.
  intros Hp M C. destruct (ustore code p vm utf8 s) as [[s1 vm'] r] eqn:E.
  destruct (ustore_spec _ _ _ _ _ _ _ _ _ Hp E) as (P1 & D1 & L1 & M1 & C1 & K1 & K2).
  destruct (carried_unique _ _ _ _ _ _ _ _ _ _ _ _ _ _ M C M1 C1) as (-> & -> & -> & ->). exists vm', r. auto.
Qed.

(** C98. If all calls return, [store] succeeds: the entries are what the calls gave, and later sources cannot change the parsed names
    that are not composing; the names required are those of the description. *)
Theorem C98_result : forall S (code : user_code S) p ds vm utf8 s s' parses defaults,
  pr_desc p = Some ds -> made code utf8 s (parses ++ defaults) s' -> carried_out ds p vm parses defaults [] ->
  Forall returned (parses ++ defaults) ->
  exists vm', ustore code p vm utf8 s = (s', vm', Ok tt)
    /\ filled ds vm vm' parses defaults /\ decided ds vm vm' parses
    /\ vm_required vm' = vm_required (fst (store (mk_parsed [] (Some ds) (pr_prefix p)) vm utf8)).
Proof.
  intros S code p ds vm utf8 s s' P D Hp M C Hr. apply Forall_app in Hr as [HP HD].
  destruct (run _ _ _ _ _ _ _ _ _ _ Hp M C) as (vm' & r & H1 & [(_ & _ & H2 & H3 & H4 & H5)|(-> & H2 & _ & _ & (taken & _ & _ & H3) & _)] & _).
  - destruct H2 as [(-> & _)|(h1 & d & r0 & -> & _ & K & _)]; [exists vm'; auto|]. exfalso. apply Forall_app in HD as [_ HD].
    apply Forall_inv in HD as (def & K2). now apply (K def).
  - exfalso. destruct H3 as [(K & _)|[(h1 & os0 & o & d & b & a & r0 & -> & _ & _ & K & _)|(o & rest & K & _)]]; [contradiction| |discriminate].
    apply Forall_app in HP as [_ HP]. apply Forall_inv in HP. contradiction.
Qed.
Print Assumptions C98_result.

(** C98. If [parse] throws, [store] throws the exception with the option filled in.  What the calls have left for the names so far is in
    the map, also what the last one has left; no defaults are stored; what later sources can change and what is required is as
    before. *)
Theorem C98_parse_throws : forall S (code : user_code S) p ds vm utf8 s s' parses d name before tokens after e later,
  pr_desc p = Some ds -> let calls := parses ++ [UParse d name before tokens after (Throw e)] in
  made code utf8 s calls s' -> carried_out ds p vm calls [] later ->
  exists vm' o earlier,
    due p vm = earlier ++ o :: later /\ List.length earlier = List.length parses /\ po_key o = name
    /\ ustore code p vm utf8 s = (s', vm', Throw (add_context name (hd [] (po_orig o)) (pr_prefix p) e))
    /\ vm_final vm' = vm_final vm /\ vm_required vm' = vm_required vm
    /\ (forall n, In n (parsed_names calls) -> exists sem, entry vm' n = Some (mk_vv (latest vm calls n) false sem))
    /\ (forall n, ~ In n (parsed_names calls) -> entry vm' n = entry vm n).
Proof.
  intros S code p ds vm utf8 s s' P d name b tokens a e L Hp calls M C. unfold calls in *. clear calls.
  assert (M' : made code utf8 s ((P ++ [UParse d name b tokens a (Throw e)]) ++ []) s') by now rewrite app_nil_r.
  destruct (run _ _ _ _ _ _ _ _ _ _ Hp M' C) as (vm' & r & H1 & [(_ & H2 & _)|(_ & H2 & H3 & H4 & (taken & H5 & H6 & H7) & H8 & H9)] & _).
  { exfalso. apply Forall_app in H2 as [_ H2]. apply Forall_inv in H2. discriminate. }
  destruct H7 as [(K & _)|[(h1 & os0 & o & d1 & b1 & a1 & r0 & E & -> & _ & K & ->)|(o & rest & -> & K & _)]]; [contradiction| |].
  2:{ exfalso. apply Forall_app in K as [_ K]. apply Forall_inv in K. discriminate. }
  apply app_inj_tail in E as [<- [= <- -> <- -> <- <-]]. exists vm', o, os0.
  split; [now rewrite <- app_assoc in H5|]. split; [|split; [reflexivity|]].
  { apply Forall2_app_inv_l in H6 as (l1 & l2 & K1 & K2 & K3). inversion K2 as [|? ? ? ? _ K4]; subst. inversion K4; subst.
    apply app_inj_tail in K3 as [-> _]. clear - K1. induction K1; cbn; congruence. }
  split; [|split; [exact H3|split; [exact H4|split; [apply H9; right; eexists; reflexivity|exact H8]]]].
  rewrite H1. reflexivity.
Qed.
Print Assumptions C98_parse_throws.

(** C98. If [apply_default] throws, [store] throws the same exception, nothing being filled in.  The source has been stored, with the
    defaults so far, and its names can no longer be changed by later sources. *)
Theorem C98_default_throws : forall S (code : user_code S) p ds vm utf8 s s' parses defaults d e,
  pr_desc p = Some ds -> made code utf8 s (parses ++ defaults ++ [UDefault d (Throw e)]) s' ->
  carried_out ds p vm parses (defaults ++ [UDefault d (Throw e)]) [] ->
  exists vm', ustore code p vm utf8 s = (s', vm', Throw e) /\ filled ds vm vm' parses defaults /\ decided ds vm vm' parses.
Proof.
  intros S code p ds vm utf8 s s' P D d e Hp M C.
  destruct (run _ _ _ _ _ _ _ _ _ _ Hp M C) as (vm' & r & H1 & [(_ & _ & H2 & H3 & H4 & _)|(H2 & _)] & _); [|now destruct D].
  destruct H2 as [(_ & K)|(h1 & d1 & r0 & E & _ & _ & ->)].
  { exfalso. apply Forall_app in K as [_ K]. apply Forall_inv in K as (def & K2). discriminate. }
  apply app_inj_tail in E as [<- [= <- <-]]. exists vm'. split; [exact H1|]. split; [|exact H4].
  intros name. destruct (H3 name) as (K1 & K2 & K3). split; [exact K1|]. split; [exact K2|]. intros N1 N2. destruct (K3 N1 N2) as [K4 K5]. split.
  - intros d0 a0 Hin. apply K4. apply in_or_app. now left.
  - intros K. apply K5. intros d0 a0 Hin. apply in_app_or in Hin as [Hin|[[=]|[]]]. now apply (K d0 a0).
Qed.
Print Assumptions C98_default_throws.

(** C98. If all calls return but the description does not know the next name, [store] throws with that name filled in, no defaults
    having been asked for. *)
Theorem C98_unknown : forall S (code : user_code S) p ds vm utf8 s s' parses o later e,
  pr_desc p = Some ds -> made code utf8 s parses s' -> carried_out ds p vm parses [] (o :: later) ->
  Forall returned parses -> find ds (po_key o) false false false = Throw e ->
  exists vm', ustore code p vm utf8 s = (s', vm', Throw (add_context (po_key o) (hd [] (po_orig o)) (pr_prefix p) e))
    /\ vm_final vm' = vm_final vm /\ vm_required vm' = vm_required vm
    /\ (forall n, In n (parsed_names parses) -> exists sem, entry vm' n = Some (mk_vv (latest vm parses n) false sem))
    /\ (forall n, ~ In n (parsed_names parses) -> entry vm' n = entry vm n).
Proof.
  intros S code p ds vm utf8 s s' P o L e Hp M C Hr Hf.
  assert (M' : made code utf8 s (P ++ []) s') by now rewrite app_nil_r.
  destruct (run _ _ _ _ _ _ _ _ _ _ Hp M' C) as (vm' & r & H1 & [(H2 & _)|(_ & H2 & H3 & H4 & (taken & H5 & H6 & H7) & H8 & H9)] & _); [discriminate|].
  destruct H7 as [(K & _)|[(h1 & os0 & o1 & d1 & b1 & a1 & r0 & -> & _ & _ & K & ->)|(o1 & rest & [= <- <-] & _ & K)]]; [contradiction| |].
  { exfalso. apply Forall_app in Hr as [_ Hr]. apply Forall_inv in Hr. contradiction. }
  unfold failed_to_find in K. rewrite Hf in K. subst r. exists vm'. split; [exact H1|]. split; [exact H3|]. split; [exact H4|].
  split; [apply H9; right; eexists; reflexivity|exact H8].
Qed.
Print Assumptions C98_unknown.

(** C98. The result depends on the answers only: other code, with another state, that gives the same answers to these calls leads to the
    same map and the same outcome. *)
Theorem C98_same_answers : forall S (code : user_code S) T (code' : user_code T) p ds vm utf8 s s' vm' r parses defaults later t t',
  pr_desc p = Some ds -> ustore code p vm utf8 s = (s', vm', r) ->
  made code utf8 s (parses ++ defaults) s' -> carried_out ds p vm parses defaults later ->
  made code' utf8 t (parses ++ defaults) t' -> ustore code' p vm utf8 t = (t', vm', r).
Proof.
  intros S code T code' p ds vm utf8 s s' vm' r P D L t t' Hp H M C M'.
  destruct (run _ _ _ _ _ _ _ _ _ _ Hp M C) as (vm1 & r1 & H1 & _ & H2). rewrite H in H1. injection H1 as <- <-. now apply H2.
Qed.
Print Assumptions C98_same_answers.

(** C98. Code without state whose [apply_default] does not throw is what the other properties of [store] are about. *)
Theorem C98_plain : forall p vm utf8,
  ustore plain_code p vm utf8 tt = (tt, fst (store p vm utf8), snd (store p vm utf8)).
Proof.
  intros p vm utf8. unfold ustore, store. destruct (pr_desc p) as [ds|]; [|reflexivity]. rewrite plain_options.
  destruct (store_options ds (pr_prefix p) (vm_final vm) utf8 (pr_options p) (vm_map vm) []) as [[m nf] [[]|e|u|]]; try reflexivity.
  rewrite plain_defaults. destruct (store_defaults ds (pr_prefix p) m (vm_required vm)) as [m' req]. reflexivity.
Qed.
Print Assumptions C98_plain.


(** Semantics that count their calls: each value is what was there, and the tokens, and the number of the call; the fourth call throws,
    whichever it is. *)
Definition text (a : any) : str := match a with Some (VString x) => x | _ => [] end.
Definition counting (limit : nat) : user_code nat := fun d =>
  mk_us (fun a xs _ s => (S s, (Some (VString (text a ++ List.concat xs ++ repeat "!"%char s)),
                               if s =? limit then Throw (mk_invalid_option_value $"v") else Ok tt)))
        (fun s => (S s, if s =? limit then Throw (mk_invalid_option_value $"d")
                        else Ok (if vs_required (od_sem d) then None else Some (Some (VString (repeat "?"%char s)))))).

Definition o_k : option_description := mk_od [] [$"k"] [] tvalue.
Definition o_m : option_description := mk_od [] [$"m"] [] (typed lex local tstrings).
Definition o_z : option_description := mk_od [] [$"z"] [] tvalue.
Definition written (name : str) (xs : list str) : popt := mk_popt name (-1) xs [$"--" ++ name] false false.
Definition some_source : parsed_options :=
  mk_parsed [written $"m" [$"a"]; mk_popt [] (-1) [$"x"] [$"x"] false false; written $"z" [$"b"]; written $"m" [$"c"]]
    (Some [o_k; o_m; o_z]) 2.

Definition three_parses (limit : nat) : list user_call :=
  [UParse o_m $"m" None [$"a"] (Some (VString $"a")) (Ok tt);
   UParse o_z $"z" None [$"b"] (Some (VString $"b!")) (Ok tt);
   UParse o_m $"m" (Some (VString $"a")) [$"c"] (Some (VString $"ac!!")) (if 2 =? limit then Throw (mk_invalid_option_value $"v") else Ok tt)].

Lemma parses_carried limit : forall h1 d n b t a r h2, three_parses limit = h1 ++ UParse d n b t a r :: h2 -> b = latest vm_new h1 n.
Proof.
  intros h1 d n b t a r h2 E. unfold three_parses in E.
  destruct h1 as [|c1 [|c2 [|c3 h1]]]; cbn [app] in E; injection E; intros; subst; try reflexivity. now destruct h1.
Qed.

(** All calls return, one default being asked for. *)
Example C98_ex :
  let parses := three_parses 9 in
  let defaults := [UDefault o_k (Ok (Some (Some (VString $"???"))))] in
  made (counting 9) false 0 (parses ++ defaults) 4 /\ carried_out [o_k; o_m; o_z] some_source vm_new parses defaults []
  /\ Forall returned (parses ++ defaults)
  /\ entry (snd (fst (ustore (counting 9) some_source vm_new false 0))) $"m" = Some (mk_vv (Some (VString $"ac!!")) false (Some (od_sem o_m)))
  /\ entry (snd (fst (ustore (counting 9) some_source vm_new false 0))) $"k" = Some (mk_vv (Some (VString $"???")) true (Some (od_sem o_k))).
Proof.
  cbv zeta. split; [repeat (eapply ma_parse; [reflexivity|]); eapply ma_default; [reflexivity|apply ma_none]|].
  assert (R : Forall returned (three_parses 9 ++ [UDefault o_k (Ok (Some (Some (VString $"???"))))])).
  { repeat (apply Forall_cons; [reflexivity|]). apply Forall_cons; [eexists; reflexivity|apply Forall_nil]. }
  split; [|split; [exact R|split; [vm_compute; reflexivity|vm_compute; reflexivity]]].
  split.
  { exists [written $"m" [$"a"]; written $"z" [$"b"]; written $"m" [$"c"]]. split; [reflexivity|].
    repeat (apply Forall2_cons; [do 4 eexists; split; [reflexivity|vm_compute; reflexivity]|]). apply Forall2_nil. }
  split; [exact (parses_carried _)|]. split.
  { intros h1 c h2 E _. rewrite Forall_forall in R. apply R. rewrite E. apply in_or_app. right. now left. }
  left. split; [reflexivity|]. split; [apply Forall_app in R as [R _]; exact R|].
  apply as_some; [discriminate| |].
  { intros [K|K]; [now apply K|]. cbn in K. repeat destruct K as [K|K]; try discriminate. exact K. }
  apply as_skip; [right; left; right; now left|]. apply as_skip; [right; left; right; right; now left|]. apply as_nil.
Qed.

(** The third call throws; or the default does. *)
Example C98_ex_throws :
  (exists s vm', ustore (counting 2) some_source vm_new false 0 =
     (s, vm', Throw (add_context $"m" $"--m" 2 (mk_invalid_option_value $"v")))
     /\ s = 3 /\ entry vm' $"m" = Some (mk_vv (Some (VString $"ac!!")) false (Some (od_sem o_m))) /\ vm_final vm' = [])
  /\ made (counting 2) false 0 (three_parses 2) 3 /\ carried_out [o_k; o_m; o_z] some_source vm_new (three_parses 2) [] []
  /\ (exists s vm', ustore (counting 3) some_source vm_new false 0 = (s, vm', Throw (mk_invalid_option_value $"d"))
     /\ s = 4 /\ entry vm' $"m" = Some (mk_vv (Some (VString $"ac!!")) false (Some (od_sem o_m))) /\ vm_final vm' = [$"m"; $"z"]).
Proof.
  split; [do 2 eexists; split; [reflexivity|]; repeat split; vm_compute; reflexivity|]. split; [repeat (eapply ma_parse; [reflexivity|]); apply ma_none|].
  split; [|do 2 eexists; split; [reflexivity|]; repeat split; vm_compute; reflexivity]. split.
  { exists [written $"m" [$"a"]; written $"z" [$"b"]; written $"m" [$"c"]]. split; [reflexivity|].
    repeat (apply Forall2_cons; [do 4 eexists; split; [reflexivity|vm_compute; reflexivity]|]). apply Forall2_nil. }
  split; [exact (parses_carried _)|]. rewrite app_nil_r. split.
  { intros h1 c h2 E N. change (three_parses 2) with (firstn 2 (three_parses 2) ++ skipn 2 (three_parses 2)) in E. cbn [skipn three_parses] in E.
    apply app_last_split in E; [|exact N]. destruct E as [<-|[<-|[]]]; reflexivity. }
  right. left. split; [reflexivity|]. apply Exists_exists. eexists. split; [right; right; left; reflexivity|]. discriminate.
Qed.

(** The source has a name the description does not know. *)
Example C98_ex_unknown :
  let p := mk_parsed [written $"m" [$"a"]; written $"q" []] (Some [o_k; o_m; o_z]) 2 in
  let parses := [UParse o_m $"m" None [$"a"] (Some (VString $"a")) (Ok tt)] in
  made (counting 9) false 0 parses 1 /\ carried_out [o_k; o_m; o_z] p vm_new parses [] [written $"q" []] /\ Forall returned parses
  /\ find [o_k; o_m; o_z] $"q" false false false = Throw (mk_unknown_option []).
Proof.
  cbv zeta. split; [eapply ma_parse; [reflexivity|apply ma_none]|].
  assert (R : Forall returned [UParse o_m $"m" None [$"a"] (Some (VString $"a")) (Ok tt)]) by (apply Forall_cons; [reflexivity|apply Forall_nil]).
  split; [|split; [exact R|vm_compute; reflexivity]]. split.
  { exists [written $"m" [$"a"]]. split; [reflexivity|].
    apply Forall2_cons; [do 4 eexists; split; [reflexivity|vm_compute; reflexivity]|]. apply Forall2_nil. }
  split.
  { intros [|c h1] d n b t a r h2 E; cbn [app] in E; [injection E; intros; now subst|]. destruct h1; discriminate. }
  split; [intros [|c h1] c0 h2 E N; cbn [app] in E; [injection E; intros; now subst|]; destruct h1; discriminate|].
  right. right. split; [reflexivity|]. split; [exact R|]. do 2 eexists. split; [reflexivity|]. intros d. vm_compute. discriminate.
Qed.
