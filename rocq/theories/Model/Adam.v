(** gp_training.py adam_optimize 577-667, real arithmetic.  The objective and its gradient are oracles; the stop
    signal is an arbitrary function of the iteration.  The callback is recorded as the list of its arguments. *)
From Coq Require Import Reals.
From Verif Require Import Model.Prelude.
Local Open Scope R_scope.

Definition rvec := list R.
Fixpoint map2 (f : R -> R -> R) (a b : rvec) : rvec :=
  match a, b with x :: a', y :: b' => f x y :: map2 f a' b' | _, _ => [] end.
Definition norm (a : rvec) : R := sqrt (fold_right (fun x s => x * x + s) 0 a).

Record adam_cfg := Cfg { lr : R; beta1 : R; beta2 : R; eps : R; tol : R }.
(** one history/callback entry: theta, value, gradient, iteration *)
Record entry := Entry { e_theta : rvec; e_val : R; e_grad : rvec; e_iter : nat }.

Section Adam.
Variables (c : adam_cfg) (nlml : rvec -> R) (grad : rvec -> rvec) (early_stop : nat -> bool).

Definition moment1 (m g : rvec) : rvec := map2 (fun a b => beta1 c * a + (1 - beta1 c) * b) m g.
Definition moment2 (v g : rvec) : rvec := map2 (fun a b => beta2 c * a + (1 - beta2 c) * (b * b)) v g.
Definition corrected (b : R) (m : rvec) (t : nat) : rvec := map (fun a => a / (1 - b ^ t)) m.
Definition step (m v : rvec) (t : nat) : rvec :=
  map2 (fun a b => lr c * a / (sqrt b + eps c)) (corrected (beta1 c) m t) (corrected (beta2 c) v t).
Definition sub (a b : rvec) : rvec := map2 Rminus a b.

Fixpoint adam_loop (left t : nat) (theta m v : rvec) : rvec * list entry :=
  match left with
  | O => (theta, [])
  | S left' =>
      let g := grad theta in
      let m1 := moment1 m g in
      let v1 := moment2 v g in
      let theta1 := sub theta (step m1 v1 t) in
      let h := Entry theta (nlml theta) g t in
      if (if Rlt_dec (norm (sub theta1 theta)) (tol c) then true else early_stop t) then (theta1, [h])
      else let (th, hs) := adam_loop left' (t + 1) theta1 m1 v1 in (th, h :: hs)
  end.

Definition adam (theta0 : rvec) (max_iter : nat) : rvec * list entry :=
  adam_loop max_iter 1 theta0 (repeat 0 (length theta0)) (repeat 0 (length theta0)).
End Adam.
