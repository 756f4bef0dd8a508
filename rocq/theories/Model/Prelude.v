(** Common vocabulary of the model: results with exceptions as values. *)
From Coq Require Export List Arith ZArith Bool Lia.
Export ListNotations.

(** A Python call either returns a value or raises; [E] is the type of raise sites. *)
Inductive res (E A : Type) : Type :=
| Ok (a : A)
| Err (e : E).
Arguments Ok {E A} a.
Arguments Err {E A} e.

Definition is_ok {E A} (r : res E A) : bool := match r with Ok _ => true | Err _ => false end.
