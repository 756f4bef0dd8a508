(** What the solver modes of GPkv are judged by: linear systems, determinants and histories of updates.
    The contracts say what numpy, scipy and a user's callables have to deliver. *)
From mathcomp Require Import all_ssreflect all_algebra.
From Verif Require Import Model.Solvers Spec.CholSpec.
Set Implicit Arguments.
Unset Strict Implicit.
Unset Printing Implicit Defensive.
Import GRing.Theory Num.Theory.
Local Open Scope ring_scope.

(** modes that solve and take determinants without iteration or sampling *)
Definition exact_mode (m : smode) : bool :=
  match m with Chol | CholInv | Inv | SparseLU | Custom => true | _ => false end.
(** modes that refuse a matrix which is not positive definite *)
Definition chol_mode (m : smode) : bool := match m with Chol | CholInv => true | _ => false end.

Definition symmetric (R : rcfType) n (A : 'M[R]_n) : Prop := A^T = A.

(** the matrices a mode can work with *)
Definition accepts (R : rcfType) (mode : smode) n (A : 'M[R]_n) : Prop :=
  match mode with
  | Chol | CholInv => posdef A
  | Inv | SparseLU => A \in unitmx
  | _ => True
  end.

Section Contracts.
Variables (R : rcfType) (G : zmodType) (lg : R -> G).
(** cho_factor: fails exactly on matrices that are not positive definite *)
Definition chol_contract (cho : forall n, 'M[R]_n -> option 'M[R]_n) : Prop :=
  forall n (A : 'M[R]_n), symmetric A ->
    (forall L, cho n A = Some L -> is_chol L A) /\ ((exists L, cho n A = Some L) <-> posdef A).
(** np.linalg.inv: fails exactly on singular matrices *)
Definition inv_contract (inv : forall n, 'M[R]_n -> option 'M[R]_n) : Prop :=
  forall n (A : 'M[R]_n),
    (forall B, inv n A = Some B -> A *m B = 1%:M) /\ ((exists B, inv n A = Some B) <-> A \in unitmx).
(** SuperLU: a factorization P A Q = L U with unit lower L *)
Definition lu_contract (LUt : nat -> Type) (splu : forall n, 'M[R]_n -> option (LUt n))
    (lu_solve : forall n k, LUt n -> 'M[R]_(n, k) -> 'M[R]_(n, k)) (lu_diag : forall n, LUt n -> 'rV[R]_n) : Prop :=
  forall n (A : 'M[R]_n),
    (forall F, splu n A = Some F ->
       (forall k (b : 'M[R]_(n, k)), A *m lu_solve n k F b = b) /\ `|\prod_i lu_diag n F 0 i| = `|\det A|) /\
    ((exists F, splu n A = Some F) <-> A \in unitmx).
(** a user's three callables *)
Definition custom_contract (Obj : nat -> Type) (fac : forall n, 'M[R]_n -> Obj n)
    (sol : forall n k, Obj n -> 'M[R]_(n, k) -> 'M[R]_(n, k)) (ld : forall n, Obj n -> G) : Prop :=
  forall n (A : 'M[R]_n), A \in unitmx ->
    (forall k (b : 'M[R]_(n, k)), A *m sol n k (fac n A) b = b) /\ ld n (fac n A) = lg `|\det A|.
(** an iterative solver: some bound on the answer [x] to A x = b, for instance on its residual *)
Definition iter_contract (good : forall n k, 'M[R]_n -> 'M[R]_(n, k) -> 'M[R]_(n, k) -> Prop)
    (it : smode -> forall n k, 'M[R]_n -> 'M[R]_(n, k) -> 'M[R]_(n, k)) : Prop :=
  forall m n k (A : 'M[R]_n) (b : 'M[R]_(n, k)), ~~ exact_mode m -> good n k A b (it m n k A b).
End Contracts.

(** x solves A x = b *)
Definition solves (R : rcfType) n k (A : 'M[R]_n) (b x : 'M[R]_(n, k)) : Prop := A *m x = b.
(** the same entries where both arrays are defined *)
Definition agree (R : rcfType) (n : nat) (f g : nat -> nat -> R) : Prop := forall i j, (i < n)%N -> (j < n)%N -> f i j = g i j.

(** mean squared deviation of finitely many numbers from their mean *)
Definition spread (R : rcfType) m (f : 'I_m -> R) : R :=
  let mean := (\sum_i f i) / m%:R in (\sum_i (f i - mean) ^+ 2) / m%:R.
(** gp_marginal_likelihood.py 178: the log likelihood as a function of the log determinant *)
Definition loglik_of (R : rcfType) (l1 c d : R) : R := - 2%:R^-1 * (l1 + d + c).

(** histories of the stored state in a fixed mode: set from scratch (after whatever evaluations have used the estimator), or
    extended by an update whose old block is the old matrix *)
Section Histories.
Variables (R : rcfType) (G : zmodType) (lg : R -> G).
Variable cho_factor np_inv : forall n, 'M[R]_n -> option 'M[R]_n.
Variable LUt : nat -> Type.
Variable splu : forall n, 'M[R]_n -> option (LUt n).
Variable lu_solve : forall n k, LUt n -> 'M[R]_(n, k) -> 'M[R]_(n, k).
Variable lu_diag : forall n, LUt n -> 'rV[R]_n.
Variable iterate : smode -> forall n k, 'M[R]_n -> 'M[R]_(n, k) -> 'M[R]_(n, k).
Variable estimate : nat -> forall n, 'M[R]_n -> G * option R.
Variable Obj : nat -> Type.
Variable c_factor : forall n, 'M[R]_n -> Obj n.
Variable c_solve : forall n k, Obj n -> 'M[R]_(n, k) -> 'M[R]_(n, k).
Variable c_logdet : forall n, Obj n -> G.
Variables (mode : smode) (k : nat).
Inductive reached : forall n, (nat -> nat -> R) -> 'M[R]_(n, k) -> kv R G LUt Obj k n -> Prop :=
| r_set n KV (y : 'M[R]_(n, k)) mm s :
    symmetric (lead KV n) ->
    kv_set lg cho_factor np_inv splu lu_solve lu_diag iterate estimate c_factor c_solve c_logdet mode KV y mm = Some s ->
    reached KV y s
| r_append n0 KV0 (y0 : 'M[R]_(n0, k)) s0 n KV (y : 'M[R]_(n, k)) s :
    reached KV0 y0 s0 -> symmetric (lead KV n) -> (n0 <= n -> agree n0 KV KV0)%N ->
    kv_append lg cho_factor np_inv splu lu_solve lu_diag iterate estimate c_factor c_solve c_logdet mode s0 KV y = Some s ->
    reached KV y s
| r_evaluated n KV (y : 'M[R]_(n, k)) s mm :
    reached KV y s -> reached KV y (KVs (v_factor s) mm (v_KVinvY s) (v_logdet s)).

(** evaluations in sequence, starting from the estimator's memory [mm] *)
Variables (gp2 : bool) (linalg_mode : option smode).
Inductive evaluated : memory R -> seq (evaluation R) -> memory R -> Prop :=
| ev_nil mm : evaluated mm [::] mm
| ev_cons mm es mm1 e x d mm2 :
    evaluated mm es mm1 ->
    evaluate lg cho_factor np_inv splu lu_solve lu_diag iterate estimate c_factor c_solve c_logdet gp2 linalg_mode mode e mm1
      = Some (x, d, mm2) ->
    evaluated mm (rcons es e) mm2.
End Histories.
