(** C97: parsers with a style parser supplied by the user, such as a reader of response files. *)

From Coq Require Import List Ascii String NArith ZArith Bool Arith Lia.
From Verif Require Import Base Errors Spec BaseFacts Values OptDesc SpecLookup Positional Cmdline SpecCmdline
  CmdlineFacts CongruenceFacts SpecStyle StyleFacts Samples Witness.
Import ListNotations.

(** If every call of the style parser returns, and each time either leaves as many tokens as it got or
    makes them lighter by some measure, parsing ends after at most as many rounds as the tokens weigh. *)
Theorem C97_ends : forall c p w args fuel,
  returns p -> lightens w p -> weighs w args <= fuel ->
  run fuel (with_user_parser c p) args <> NoFuel /\
  run fuel (with_user_parser c p) args = run (weighs w args) (with_user_parser c p) args.
Proof. intros c p w args fuel Hr Hl Hw. now apply user_run_nofuel. Qed.

(** A style parser that finds no option but keeps adding tokens makes the parser loop for ever. *)
Theorem C97_endless : forall c p args fuel,
  swells p -> args <> [] -> run fuel (with_user_parser c p) args = NoFuel.
Proof. intros c p args fuel Hp Hne. unfold run. now rewrite (swelling_loop c p fuel Hp args Hne). Qed.

(** A style parser that leaves everything to the others changes nothing. *)
Theorem C97_transparent : forall c p args fuel,
  declines p -> run fuel (with_user_parser c p) args = run fuel (without_user_parser c) args.
Proof. intros c p args fuel Hp. apply run_cong; auto. intros tok rest. now apply declining_step. Qed.

(** Whatever the style parser returns: an option of the result is positional, or not registered, marked so
    and allowed, or registered under its key with at least the values it needs. *)
Theorem C97_checked : forall c p args fuel res,
  run fuel (with_user_parser c p) args = Ok res ->
  Forall (fun o => po_pos o <> (-1)%Z \/ is_unregistered c o \/ is_registered c o) res.
Proof. intros c p args fuel res H. exact (run_settled _ _ _ _ H). Qed.

(** But not more values than it can take. *)
Definition three_numbers : style_parser := fun args =>
  match args with
  | t :: rest => if str_eqb t $"123" then Ok ([mk_popt $"number" (-1) [$"1"; $"2"; $"3"] [t] false false], rest) else Ok ([], args)
  | [] => Ok ([], [])
  end.

Theorem C97_maximum_refuted : exists c p args o d,
  run 9 (with_user_parser c p) args = Ok [o] /\ po_pos o = (-1)%Z /\ lookup c (po_key o) = Ok (Some d) /\
  (vs_max (od_sem d) < Z.of_nat (List.length (po_value o)))%Z.
Proof.
  exists (sample_cl default_style), three_numbers, [$"123"],
    (mk_popt $"number" (-1) [$"1"; $"2"; $"3"] [$"123"] false false), o_number.
  split; [vm_compute; reflexivity|]. split; [reflexivity|]. split; [vm_compute; reflexivity|]. vm_compute. reflexivity.
Qed.

(** A reader of response files: if parsing succeeds and no name of a file is left among the tokens of the
    result, the result is that of the command line with all files written out. *)
Theorem C97_response : forall c content args fuel res,
  no_links content ->
  run fuel (with_user_parser c (response_reader content)) args = Ok res ->
  all_read content res ->
  (exists out, expands content args out) /\
  forall out, expands content args out -> parse (without_user_parser c) out = Ok res.
Proof.
  intros c content args fuel res Hl H Hr. destruct (response_run c content fuel args res Hl H Hr) as (out & He & Hp).
  split; [eauto|]. intros out' He'. now rewrite (expands_unique _ _ _ He _ He').
Qed.

(** A name of a file is not read where an option takes its value ... *)
Definition two_files (t : str) : option (list str) :=
  if str_eqb t $"@all" then Some [$"--output"; $"x"; $"@more"; $"-v"]
  else if str_eqb t $"@more" then Some [$"--number=3"; $"word"] else None.

Theorem C97_value_refuted : exists c content args res,
  no_links content /\ run 9 (with_user_parser c (response_reader content)) args = Ok res /\ ~ all_read content res.
Proof.
  exists (sample_cl default_style), two_files, [$"--output"; $"@all"],
    [mk_popt $"output" (-1) [$"@all"] [$"--output"; $"@all"] false false].
  split.
  { intros t t' H. unfold two_files in H. destruct (str_eqb t $"@all"); [discriminate|]. destruct (str_eqb t $"@more"); discriminate. }
  split; [vm_compute; reflexivity|]. intros H. specialize (H $"@all" ltac:(vm_compute; auto)). discriminate.
Qed.

(** ... nor where it is all there is in another file. *)
Definition linked_files (t : str) : option (list str) :=
  if str_eqb t $"@all" then Some [$"@more"] else if str_eqb t $"@more" then Some [$"-v"; $"word"] else None.

Theorem C97_link_refuted : exists c content args res,
  run 9 (with_user_parser c (response_reader content)) args = Ok res /\ ~ all_read content res /\
  exists out, expands content args out /\ parse (without_user_parser c) out <> Ok res.
Proof.
  exists (sample_cl default_style), linked_files, [$"@all"], [mk_popt [] 0 [$"@more"] [$"@more"] false false].
  split; [vm_compute; reflexivity|]. split.
  { intros H. specialize (H $"@more" ltac:(vm_compute; auto)). discriminate. }
  exists [$"-v"; $"word"]. split.
  { eapply expands_file; [reflexivity|]. eapply expands_file; [reflexivity|]. cbn [app].
    constructor; [reflexivity|]. constructor; [reflexivity|]. constructor. }
  vm_compute. discriminate.
Qed.

(** A style parser that removes a token without returning an option makes the parser read past the end of the
    tokens when an option before it needs a value. *)
Theorem C97_swallow : forall c p name t rest d fuel,
  cl_additional c = None -> has (cl_style c) allow_long = true -> name <> [] -> ~ In c_eq name ->
  lookup c name = Ok (Some d) -> (1 <= vs_min (od_sem d) <= 1 + Z.of_nat (List.length rest))%Z ->
  p ((dashdash ++ name) :: t :: rest) = Ok ([], (dashdash ++ name) :: t :: rest) -> p [t] = Ok ([], []) ->
  run (S fuel) (with_user_parser c p) ((dashdash ++ name) :: t :: rest) = Undef UB_index.
Proof. exact swallowing_run. Qed.

Print Assumptions C97_ends.
Print Assumptions C97_endless.
Print Assumptions C97_transparent.
Print Assumptions C97_checked.
Print Assumptions C97_maximum_refuted.
Print Assumptions C97_response.
Print Assumptions C97_value_refuted.
Print Assumptions C97_link_refuted.
Print Assumptions C97_swallow.

(** ** The hypotheses can be met *)

Definition file_weight (t : str) : nat := if str_eqb t $"@all" then 9 else if str_eqb t $"@more" then 3 else 1.

Example C97_ex_lightens : returns (response_reader two_files) /\ lightens file_weight (response_reader two_files).
Proof.
  split.
  { intros [|t rest]; [discriminate|]. cbn [response_reader]. destruct (two_files t); discriminate. }
  split.
  { intros t. unfold file_weight. destruct (str_eqb t $"@all"); [lia|]. destruct (str_eqb t $"@more"); lia. }
  intros [|t rest] os left H; cbn [response_reader] in H; [injection H as _ <-; cbn; lia|].
  unfold two_files in H.
  destruct (str_eqb_spec t $"@all") as [->|E1]; [|destruct (str_eqb_spec t $"@more") as [->|E2]]; injection H as _ <-; [| |split; [auto|lia]];
    unfold weighs, list_sum; cbn [app map fold_right List.length];
    repeat match goal with
      | |- context [file_weight (?a :: ?l)] => let v := eval vm_compute in (file_weight (a :: l)) in change (file_weight (a :: l)) with v
      end; change (file_weight $"@all") with 9; change (file_weight $"@more") with 3; lia.
Qed.

Example C97_ex_response : exists res,
  run 20 (with_user_parser (sample_cl default_style) (response_reader two_files)) [$"first"; $"@all"; $"last"] = Ok res
  /\ map po_key res = [[]; $"output"; $"number"; []; $"verbose"; []] /\ List.concat (map po_orig res)
     = [$"first"; $"--output"; $"x"; $"--number=3"; $"word"; $"-v"; $"last"].
Proof. compute_ex. Qed.

Example C97_ex_all_read : exists res,
  run 20 (with_user_parser (sample_cl default_style) (response_reader two_files)) [$"first"; $"@all"; $"last"] = Ok res
  /\ all_read two_files res.
Proof.
  destruct C97_ex_response as (res & H & _ & Ht). exists res. split; [exact H|]. unfold all_read, tokens_of. rewrite Ht.
  intros t Hin. cbn in Hin. repeat (destruct Hin as [<-|Hin]; [reflexivity|]). contradiction.
Qed.

Example C97_ex_swells : swells (fun args => Ok ([], $"@again" :: args)).
Proof. intros t rest. eexists. split; [reflexivity|]. cbn. lia. Qed.

Example C97_ex_declines : declines (response_reader (fun _ => None)).
Proof. intros t rest. reflexivity. Qed.

Example C97_ex_checked : exists res,
  run 9 (with_user_parser (sample_cl_unreg default_style) three_numbers) [$"123"; $"--odd"; $"word"] = Ok res
  /\ map po_pos res = [(-1)%Z; (-1)%Z; 0%Z] /\ map po_unreg res = [false; true; false].
Proof. compute_ex. Qed.

(** An empty file where an option needs its value. *)
Example C97_ex_swallow :
  run 9 (with_user_parser (sample_cl default_style) (response_reader (fun t => if str_eqb t $"@none" then Some [] else None)))
    [$"--output"; $"@none"] = Undef UB_index.
Proof.
  apply (C97_swallow (sample_cl default_style) _ $"output" $"@none" [] o_output 8); try reflexivity.
  - discriminate.
  - vm_compute. intuition discriminate.
  - vm_compute. split; discriminate.
Qed.
