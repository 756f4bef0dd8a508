(** What a user may expect of the space-filling points a BO run starts with (property C203).

    Independent of the code: how many of them there are, in words of the documentation ("roughly 2(d+1), the usual rule of thumb,
    clipped into [5, 10d] and then into the budget"; a request is clipped into [2, budget]). *)
From Coq Require Import ZArith List.
Local Open Scope Z_scope.

Definition clipped (lo hi v : Z) : Z := if v <? lo then lo else if hi <? v then hi else v.
(** number of space-filling points for [d] hyperparameters, a budget and a request *)
Definition space_filling (asked : option Z) (d budget : Z) : Z :=
  match asked with
  | Some n => clipped 2 budget n
  | None => clipped 2 budget (clipped 5 (10 * d) (2 * (d + 1)))
  end.
