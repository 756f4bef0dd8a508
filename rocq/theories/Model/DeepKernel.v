(** The network of deep kernels: deep_kernel_network.py Network 5-37.

    Simplifications: a layer is its rows of weights and its biases; every arithmetic operation is exact, followed by a rounding [rnd]
    (the identity, or rounding to single precision as in torch.Tensor(x) and .float()); sums run from left to right; overflow left
    out.  How a hyperparameter vector becomes weights and biases is up to the user's kernel; [unpack] is that of
    examples/MultiTaskTest.ipynb 850-868, in which indexing beyond the end raises.  WarpNet 43-60 (no relu on the last layer) differs by [last].  No proofs here. *)
From Coq Require Import Reals List Arith ZArith.
From Flocq Require Import Core.Core.
Import ListNotations.
Local Open Scope R_scope.

Record layer := Layer { weight : list (list R); bias : list R }.
Record network := Network { layer1 : layer; layer2 : layer; layer3 : layer }.

(** 13: int(2. * dim * layer_width + layer_width ** 2 + 2. * layer_width + dim) *)
Definition number_of_hps (dim layer_width : nat) : nat := 2 * dim * layer_width + layer_width ^ 2 + 2 * layer_width + dim.

Definition relu (v : list R) : list R := map (Rmax 0) v.
Definition single (x : R) : R := round radix2 (FLT_exp (-149) 24) ZnearestE x.

Section Net.
  Variable rnd : R -> R.
  Fixpoint dot (acc : R) (w x : list R) : R :=
    match w, x with a :: w', b :: x' => dot (rnd (acc + rnd (rnd a * b))) w' x' | _, _ => acc end.
  Definition linear (l : layer) (x : list R) : list R :=
    map (fun wb => rnd (dot 0 (fst wb) x + rnd (snd wb))) (combine (weight l) (bias l)).
  (** 15-19 *)
  Definition forward (last : list R -> list R) (n : network) (x : list R) : list R :=
    last (linear (layer3 n) (relu (linear (layer2 n) (relu (linear (layer1 n) (map rnd x)))))).
  Definition deep (n : network) : list R -> list R := forward relu n.
  Definition warp (n : network) : list R -> list R := forward (fun v => v) n.
End Net.

(** a kernel on the warped points, as in the documentation: kernel(network(x1), network(x2)) *)
Definition deep_kernel (rnd : R -> R) (k : list R -> list R -> R) (n : network) (x y : list R) : R := k (deep rnd n x) (deep rnd n y).

(** v.reshape(r, c), row by row *)
Fixpoint reshape (r c : nat) (v : list R) : list (list R) :=
  match r with O => [] | S r' => firstn c v :: reshape r' c (skipn c v) end.
(** examples/MultiTaskTest.ipynb 850-868: w1, w2, w3, b1, b2, b3 one after the other; None: an index out of range *)
Definition slice (from len : nat) (h : list R) : list R := firstn len (skipn from h).
Definition unpack (dim lw : nat) (h : list R) : option network :=
  let w1 := (lw * dim)%nat in
  let w2 := (lw ^ 2)%nat in
  let w3 := (lw * dim)%nat in
  let l1 := w1 in let l2 := (l1 + w2)%nat in let l3 := (l2 + w3)%nat in let l4 := (l3 + lw)%nat in let l5 := (l4 + lw)%nat in
  if (l5 + dim <=? length h)%nat then
    Some (Network (Layer (reshape lw dim (slice 0 w1 h)) (slice l3 lw h)) (Layer (reshape lw lw (slice l1 w2 h)) (slice l4 lw h))
                  (Layer (reshape dim lw (slice l2 w3 h)) (slice l5 dim h)))
  else None.
