(** What building and training the component GPs is to achieve. *)
From Coq Require Import Reals String.
From Verif Require Import Model.Prelude Model.GGMPTrain.
Local Open Scope R_scope.

(** ** training until convergence *)
Section Converge.
Context (train : nat -> vec -> option vec) (chunk max_total patience : nat) (tol : R) (init : vec) (hist : list hentry).
(** the hyperparameters before batch i *)
Definition before (i : nat) : vec := match i with O => init | S j => match nth_error hist j with Some h => h_hps h | None => [] end end.
Definition euclid (v : vec) : R := sqrt (fold_right (fun x s => x ^ 2 + s) 0 v).
(** each entry of the history is the outcome of one batch, started where the one before ended *)
Definition batches : Prop := forall i h, nth_error hist i = Some h ->
  train i (before i) = Some (h_hps h) /\ h_iters h = (Z.of_nat chunk * Z.of_nat (S i))%Z /\
  h_rel h = euclid (map (fun p => fst p - snd p) (combine (h_hps h) (before i))) / (euclid (before i) + / 10 ^ 12).
(** the last [patience] changes up to batch i are below the tolerance *)
Definition converged_at (i : nat) : Prop := (patience <= S i)%nat /\ forall j h, (S i - patience <= j <= i)%nat -> nth_error hist j = Some h -> h_rel h < tol.
(** none of the batches but the last may end the loop *)
Definition no_earlier_stop : Prop := forall i, (S i < length hist)%nat -> ~ converged_at i /\ (chunk * S i < max_total)%nat.
End Converge.

(** ** keyword arguments *)
(** [kw] without the keys [rm] *)
Definition without {V} (kw : dict V) (rm : list string) (kw' : dict V) : Prop :=
  forall k, get k kw' = if existsb (String.eqb k) rm then None else get k kw.
(** the entries of args that choose the device of one operation *)
Definition operation_devices : list string :=
  ["Chol_factor_compute_device"; "Chol_solve_compute_device"; "Chol_logdet_compute_device"; "update_Chol_factor_compute_device"; "random_logdet_lanczos_compute_device"]%string.
(** A device name asks for the GPU in any mixture of upper and lower case. *)
Definition asks_gpu (o : option string) : bool :=
  match o with Some s => existsb (String.eqb s) ["gpu"; "gpU"; "gPu"; "gPU"; "Gpu"; "GpU"; "GPu"; "GPU"]%string | None => false end.
