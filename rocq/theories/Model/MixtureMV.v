(** ggmp.py: log likelihood of and sampling from a multivariate Gaussian mixture.  _sym_psd 1210-1213, _log_mvn_density 1556-1581,
    loglik_multivariate_mixture_samples 1650-1671, sample_gmm_multivariate 1674-1700.

    Simplifications: real arithmetic; vectors and matrices are functions of their indices; a mixture is a list of
    (weight, (mean, covariance)), so the three arrays have equal lengths; [logpdf] stands for scipy's multivariate_normal.logpdf
    (None: the covariance is not positive definite, LinAlgError), [choose] for Generator.choice and [normals k] for the call of
    Generator.multivariate_normal made for component k. *)
From Coq Require Import Reals.
From Verif Require Import Model.Prelude.
Local Open Scope R_scope.

Notation vec := (nat -> R).
Notation mat := (nat -> nat -> R).
Notation part := (R * (vec * mat))%type.
Inductive mvexn := MEmpty | MSingular | MNoComponent | MProbabilities.

(** _sym_psd and the ridge 1577-1580, 1697 *)
Definition prepare (reg : R) (A : mat) : mat := fun i j => 1 / 2 * (A i j + A j i) + reg * (if (i =? j)%nat then 1 else 0).
Definition total (l : list R) : R := fold_right Rplus 0 l.
Definition largest (l : list R) : R := match l with [] => 0 | a :: t => fold_right Rmax a t end.
(** scipy.special.logsumexp of one row *)
Definition logsumexp (l : list R) : R := let m := largest l in m + ln (total (map (fun a => exp (a - m)) l)).
Definition weight_floor : R := / 10 ^ 300.

Section Lib.
Variable logpdf : vec -> mat -> vec -> option R.
Variable choose : list R -> nat -> list nat.
Variable normals : nat -> vec -> mat -> nat -> list vec.

(** one row of log_pdf + log_w 1667-1671 *)
Fixpoint row (reg : R) (parts : list part) (y : vec) : option (list R) :=
  match parts with
  | [] => Some []
  | (w, (m, A)) :: r =>
      match logpdf m (prepare reg A) y, row reg r y with
      | Some v, Some l => Some (v + ln (Rmax w weight_floor) :: l)
      | _, _ => None
      end
  end.
Fixpoint rows (reg : R) (parts : list part) (ys : list vec) : option (list (list R)) :=
  match ys with
  | [] => Some []
  | y :: r => match row reg parts y, rows reg parts r with Some a, Some l => Some (a :: l) | _, _ => None end
  end.
(** loglik_multivariate_mixture_samples 1650-1671 *)
Definition loglik (reg : R) (parts : list part) (ys : list vec) : res mvexn (list R) :=
  match ys with
  | [] => Err MEmpty
  | _ =>
      match rows reg parts ys with
      | None => Err MSingular
      | Some l => match parts with [] => Err MNoComponent | _ => Ok (map logsumexp l) end
      end
  end.

(** np.where(comp == k)[0] *)
Fixpoint where_from (i k : nat) (comp : list nat) : list nat :=
  match comp with
  | [] => []
  | c :: r => if (c =? k)%nat then i :: where_from (S i) k r else where_from (S i) k r
  end.
Fixpoint set_row (out : list vec) (i : nat) (v : vec) : list vec :=
  match out, i with
  | [], _ => []
  | _ :: t, O => v :: t
  | a :: t, S j => a :: set_row t j v
  end.
(** out[idx] = values *)
Fixpoint assign (out : list vec) (idx : list nat) (vals : list vec) : list vec :=
  match idx, vals with
  | i :: idx', v :: vals' => assign (set_row out i v) idx' vals'
  | _, _ => out
  end.
(** the loop over components 1692-1699 *)
Fixpoint fill (k : nat) (reg : R) (parts : list part) (comp : list nat) (out : list vec) : list vec :=
  match parts with
  | [] => out
  | (_, (m, A)) :: r =>
      let idx := where_from 0 k comp in
      let out := if (length idx =? 0)%nat then out else assign out idx (normals k m (prepare reg A) (length idx)) in
      fill (S k) reg r comp out
  end.
Definition probabilities (parts : list part) : list R := map (fun p => fst p / total (map fst parts)) parts.
(** sample_gmm_multivariate 1674-1700; rng.choice raises for no component, and for weights that are negative or sum to zero *)
Definition sample_gmm (reg : R) (parts : list part) (n : nat) : res mvexn (list vec) :=
  match parts with
  | [] => Err MNoComponent
  | _ =>
      if Req_EM_T (total (map fst parts)) 0 then Err MProbabilities
      else if existsb (fun p => if Rlt_dec p 0 then true else false) (probabilities parts) then Err MProbabilities
      else Ok (fill 0 reg parts (choose (probabilities parts) n) (repeat (fun _ => 0) n))
  end.
End Lib.
