(** * Specification vocabulary: reading the command line *)
From Coq Require Import List String.
Import ListNotations.
Local Open Scope string_scope.

Definition option_names : list string :=
  ["-type"; "-d"; "-m"; "-delta"; "-bits"; "-alpha"; "-output"; "-q"; "-N"; "-X"; "-h"; "-shift"].

(** [reads args ps]: the arguments, read from the left, are option names each followed by its value (the pairs [ps]),
    and words that are not option names, which are skipped *)
Inductive reads : list string -> list (string * string) -> Prop :=
| reads_nil : reads [] []
| reads_pair o v rest ps : In o option_names -> reads rest ps -> reads (o :: v :: rest) ((o, v) :: ps)
| reads_skip w rest ps : ~ In w option_names -> reads rest ps -> reads (w :: rest) ps.

(** the last readable value of an option, or its default *)
Fixpoint last_value {A} (rd : string -> option A) (name : string) (dflt : A) (ps : list (string * string)) : A :=
  match ps with
  | [] => dflt
  | (o, v) :: rest =>
      last_value rd name (if String.eqb o name then match rd v with Some x => x | None => dflt end else dflt) rest
  end.

(** every -type word is shorter than the 8 characters the program has room for *)
Definition types_fit (rd : string -> option string) (ps : list (string * string)) : Prop :=
  forall v w, In ("-type", v) ps -> rd v = Some w -> String.length w < 8.
