(** Vocabulary for C118: what can be said in each kind of source. *)

From Coq Require Import List Ascii String NArith ZArith Bool.
From Verif Require Import Base Errors Spec Values OptDesc SpecLookup Cmdline SpecCmdline Parsers ConfigFile SpecConfig.
Import ListNotations.

(** The options have these names, with one value each. *)
Definition settings (os : list popt) (kvs : list (str * str)) : Prop :=
  map (fun o => (po_key o, po_value o)) os = map (fun kv => (fst kv, [snd kv])) kvs.

(** "n=v" is a line of a config file that assigns [v] to [n]. *)
Record on_a_line (n v : str) : Prop := {
  ol_name : trimmed n; ol_value : trimmed v;
  ol_name_eq : without c_eq n; ol_name_hash : without c_hash n; ol_name_nl : without c_nl n;
  ol_value_hash : without c_hash v; ol_value_nl : without c_nl v;
  ol_section : ~ bracketed (n ++ [c_eq] ++ v) }.

(** The setting can be written before the first section, *)
Definition sayable (kv : str * str) : Prop := on_a_line (fst kv) (snd kv).
(** or in some section. *)
Definition sayable_in_section (kv : str * str) : Prop :=
  exists s sec n, section_name s sec /\ without c_hash s /\ without c_nl s /\ fst kv = sec ++ n /\ on_a_line n (snd kv).

(** [key] is the key of an option that has a name to type and can have one value. *)
Definition takes_value (c : cmdline) (key : str) : Prop :=
  exists n d, n <> [] /\ without c_eq n /\ lookup c n = Ok (Some d) /\ is_key d n key /\ lookup c key = Ok (Some d)
    /\ (vs_min (od_sem d) <= 1 <= vs_max (od_sem d))%Z.
