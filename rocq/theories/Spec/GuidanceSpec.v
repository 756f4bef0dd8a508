(** Which advice is of use to whom (property C204), independent of the code: each backend and the sentence about its settings. *)
From Coq Require Import String List.
From Verif Require Import Model.Guidance.
Import ListNotations.
Local Open Scope string_scope.

Definition about (a : advice) : list string :=
  match a with AdviseILU => ["ilu"] | AdviseIC => ["ichol"; "ichol0"] | AdviseBlocks => ["block_jacobi"; "additive_schwarz"] end.
(** the backends some sentence is about *)
Definition covered (t : string) : Prop := exists a, In t (about a).
