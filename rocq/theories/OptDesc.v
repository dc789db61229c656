(** [option_description] and [options_description] without help output:
    src/options_description.cpp (34-415). *)

From Coq Require Import List Ascii String NArith ZArith Bool.
From Verif Require Import Base Errors Values.
Import ListNotations.

Set Implicit Arguments.

(** options_description.hpp: the members of [option_description].  A default
    constructed object with a null semantic is not modelled. *)
Record option_description := mk_od {
  od_short : str;               (* m_short_name: "" or "-c" *)
  od_longs : list str;          (* m_long_names *)
  od_text : str;                (* m_description *)
  od_sem : value_semantic }.    (* m_value_semantic *)

(** options_description.cpp 34-43 [tolower_] *)
Definition tolower_ (s : str) : outcome str := mapM tolower_char s.

(** options_description.cpp 191-220 [set_names], on a fresh object.  The names
    are a C string: no NUL inside (not represented). Returns short name and long
    names. *)
Definition set_names (names : str) : outcome (str * list str) :=
  let pieces := getline_all c_comma names in
  if is_empty pieces then Undef UB_assert
  else if (1 <? List.length pieces)%nat then
    match rev pieces with
    | [c] :: rest_rev =>
        let longs := rev rest_rev in
        let longs' := match longs with [[]] => [] | _ => longs end in
        Ok ([c_dash; c], longs')
    | _ => Ok ([], pieces)
    end
  else Ok ([], pieces).

(** options_description.cpp 52-68: constructors *)
Definition new_option (names : str) (s : value_semantic) (text : str) : outcome option_description :=
  let* n := set_names names in
  Ok (mk_od (fst n) (snd n) text s).

(** options_description.hpp [match_result] *)
Inductive match_result := no_match | full_match | approximate_match.

Definition is_no_match r := match r with no_match => true | _ => false end.

(** [x ? tolower_(s) : s] (options_description.cpp 81, 85, 117) *)
Definition fold_case (ignore : bool) (s : str) : outcome str :=
  if ignore then tolower_ s else Ok s.

(** options_description.cpp 83-113: the loop over the long names *)
Fixpoint match_longs (local_option : str) (approx long_ignore_case : bool)
    (names : list str) (result : match_result) : outcome match_result :=
  match names with
  | [] => Ok result
  | it :: rest =>
      let* name := fold_case long_ignore_case it in
      if is_empty name then match_longs local_option approx long_ignore_case rest result
      else
        let* last := last_char name in
        let result1 :=
          if is_no_match result && char_eqb last c_star
             && found_at_0 (removelast name) local_option
          then approximate_match else result in
        if str_eqb name local_option then Ok full_match
        else
          let result2 :=
            if approx && found_at_0 local_option name then approximate_match else result1 in
          match_longs local_option approx long_ignore_case rest result2
  end.

(** options_description.cpp 74-126 [option_description::match] *)
Definition od_match (d : option_description) (option : str)
    (approx long_ignore_case short_ignore_case : bool) : outcome match_result :=
  let* local_option := fold_case long_ignore_case option in
  let* result := match_longs local_option approx long_ignore_case (od_longs d) no_match in
  match result with
  | full_match => Ok full_match
  | _ =>
      let* local_short := fold_case short_ignore_case (od_short d) in
      if str_eqb local_short local_option then Ok full_match else Ok result
  end.

(** options_description.cpp 128-147 [key] *)
Definition od_key (d : option_description) (option : str) : str :=
  match od_longs d with
  | first :: _ => match find_char c_star first with Some _ => option | None => first end
  | [] => od_short d
  end.

(** options_description.cpp 174-180 [long_name] *)
Definition od_long_name (d : option_description) : str :=
  match od_longs d with first :: _ => first | [] => [] end.

(** options_description.cpp 149-172 [canonical_display_name] *)
Definition canonical_display_name (d : option_description) (prefix_style : Z) : str :=
  let short_or_plain :=
    let plain := match od_longs d with first :: _ => first | [] => od_short d end in
    match od_short d with
    | [_; c] =>
        if Z.eqb prefix_style allow_slash_for_short then [c_slash; c]
        else if Z.eqb prefix_style allow_dash_for_short then [c_dash; c]
        else plain
    | _ => plain
    end in
  match od_longs d with
  | first :: _ =>
      if Z.eqb prefix_style allow_long then [c_dash; c_dash] ++ first
      else if Z.eqb prefix_style allow_long_disguise then [c_dash] ++ first
      else short_or_plain
  | [] => short_or_plain
  end.

(** ** [options_description] *)

(** options_description.hpp: the members.  The parallel vectors [m_options] and
    [belong_to_group] (always pushed together, options_description.cpp 323-324) are
    one vector of pairs (theorem [C112_same]); [groups] holds copies. *)
Inductive options_description := mk_ods {
  ods_caption : str;
  ods_line_length : Z;
  ods_min_description_length : Z;
  ods_options : list (option_description * bool);
  ods_groups : list options_description }.

(** options_description.cpp 300-318: constructors; the assert uses unsigned
    arithmetic. *)
Definition new_options (caption : str) (line_length min_desc : Z) : outcome options_description :=
  if Z.ltb min_desc (Z.modulo (line_length - 1) 4294967296)
  then Ok (mk_ods caption line_length min_desc [] [])
  else Undef UB_assert.

(** options_description.cpp 320-325 *)
Definition ods_add (ds : options_description) (d : option_description) : options_description :=
  mk_ods (ods_caption ds) (ods_line_length ds) (ods_min_description_length ds)
    (ods_options ds ++ [(d, false)]) (ods_groups ds).

(** options_description.cpp 327-339; [add_loop] is the loop over the options of the group *)
Fixpoint add_loop (acc : list (option_description * bool))
    (l : list (option_description * bool)) : list (option_description * bool) :=
  match l with
  | [] => acc
  | (d, _) :: l' => add_loop (acc ++ [(d, true)]) l'
  end.
Definition ods_add_group (ds g : options_description) : options_description :=
  mk_ods (ods_caption ds) (ods_line_length ds) (ods_min_description_length ds)
    (add_loop (ods_options ds) (ods_options g)) (ods_groups ds ++ [g]).

(** options_description.cpp 360-364 [options()] *)
Definition ods_list (ds : options_description) : list option_description :=
  map fst (ods_options ds).

(** State of the search loop: [found], [had_full_match], [approximate_matches],
    [full_matches] (options_description.cpp 372-375). *)
Record find_state := mk_fs {
  fs_found : option option_description;
  fs_had_full : bool;
  fs_approx : list str;
  fs_full : list str }.

(** options_description.cpp 380-402: the loop *)
Fixpoint find_loop (name : str) (approx lic sic : bool) (ds : list option_description)
    (st : find_state) : outcome find_state :=
  match ds with
  | [] => Ok st
  | d :: ds' =>
      let* r := od_match d name approx lic sic in
      match r with
      | no_match => find_loop name approx lic sic ds' st
      | full_match =>
          find_loop name approx lic sic ds'
            (mk_fs (Some d) true (fs_approx st) (fs_full st ++ [od_key d name]))
      | approximate_match =>
          find_loop name approx lic sic ds'
            (mk_fs (if fs_had_full st then fs_found st else Some d) (fs_had_full st)
               (fs_approx st ++ [od_key d name]) (fs_full st))
      end
  end.

(** options_description.cpp 366-415 [find_nothrow]; a description is given by
    its list of options.  [None] is the null pointer. *)
Definition find_nothrow (ds : list option_description) (name : str)
    (approx lic sic : bool) : outcome (option option_description) :=
  let* st := find_loop name approx lic sic ds (mk_fs None false [] []) in
  if (1 <? List.length (fs_full st))%nat then Throw (mk_ambiguous (fs_full st))
  else if is_empty (fs_full st) && (1 <? List.length (fs_approx st))%nat
  then Throw (mk_ambiguous (fs_approx st))
  else Ok (fs_found st).

(** options_description.cpp 347-358 [find] *)
Definition find (ds : list option_description) (name : str) (approx lic sic : bool)
  : outcome option_description :=
  let* d := find_nothrow ds name approx lic sic in
  match d with Some d => Ok d | None => Throw (mk_unknown_option []) end.
