(** kernels.py 16-958 and the default kernel of gp_prior.py 376-442.

    Simplifications: exact real arithmetic, so the GPU variants (kernels.py 531-588, 741-840: the same formulas in
    single precision) are in Model/GpuKernel.v; a point set is the function giving coordinate i of a point, next
    to the number D of columns, and the hyperparameters are the function giving entry i, next to their number;
    everything is written for one entry of the matrices numpy builds by broadcasting; the neighbour search of
    scipy's cKDTree is an oracle. Sums over columns ([rsum], Spec/Sums.v) run upwards like the loops. *)
From Coq Require Import Reals.
From Verif Require Import Model.Prelude Spec.Sums.
Local Open Scope R_scope.

(** ** Kernels of a distance *)
(** squared_exponential_kernel 32, squared_exponential_kernel_robust 52 *)
Definition sq_exp (d l : R) : R := exp (- (d ^ 2) / (2 * l ^ 2)).
Definition sq_exp_robust (d phi : R) : R := exp (- (d ^ 2) * phi ^ 2).
(** exponential_kernel 73, exponential_kernel_robust 94 *)
Definition exponential (d l : R) : R := exp (- d / l).
Definition exponential_robust (d phi : R) : R := exp (- d * phi ^ 2).
(** matern_kernel_diff1 115-117, matern_kernel_diff1_grad 137-140, matern_kernel_diff1_robust 161-162 *)
Definition matern1 (d l : R) : R := (1 + sqrt 3 * d / l) * exp (- (sqrt 3 * d) / l).
Definition matern1_grad (d dist_der : R) : R :=
  let a := sqrt 3 * d in
  let dadl := sqrt 3 * dist_der in
  let ea := exp (- a) in
  dadl * ea - (1 + a) * dadl * ea.
Definition matern1_robust (d phi : R) : R := (1 + sqrt 3 * d * phi ^ 2) * exp (- (sqrt 3 * d) * phi ^ 2).
(** matern_kernel_diff2 183-187, matern_kernel_diff2_robust 208-212 *)
Definition matern2 (d l : R) : R := (1 + sqrt 5 * d / l + 5 * d ^ 2 / (3 * l ^ 2)) * exp (- (sqrt 5 * d) / l).
Definition matern2_robust (d phi : R) : R :=
  (1 + sqrt 5 * d * phi ^ 2 + 5 * d ^ 2 * (3 * phi ^ 4)) * exp (- (sqrt 5 * d) * phi ^ 2).
(** sparse_kernel 232-237; np.array copies the distances *)
Definition sparse_dist (d r : R) : R :=
  let d1 := if Req_EM_T d 0 then 10 / 10 ^ 6 else d in
  if Rlt_dec r d1 then r else d1.
Definition sparse_kernel (d r : R) : R :=
  let u := sparse_dist d r / r in
  sqrt 2 / (3 * sqrt PI) * (3 * u ^ 2 * ln (u / (1 + sqrt (1 - u ^ 2))) + (2 * u ^ 2 + 1) * sqrt (1 - u ^ 2)).
(** periodic_kernel 260 *)
Definition periodic (d l p : R) : R := exp (- (2 / l ^ 2) * sin (PI * d / p) ^ 2).
(** wendland_kernel 350-351: [d[d > 1.] = 1.] assigns into the caller's array; the model returns that array too *)
Definition clip1 (d : R) : R := if Rlt_dec 1 d then 1 else d.
Definition wendland_polynomial (d : R) : R := (1 - d) ^ 8 * (32 * d ^ 3 + 25 * d ^ 2 + 8 * d + 1).
Definition wendland_kernel (d : list R) : list R * list R :=
  let d' := map clip1 d in (map wendland_polynomial d', d').
(** sparse_kernel on an array: 232 copies before assigning *)
Definition sparse_kernel_call (d : list R) (r : R) : list R * list R := (map (fun a => sparse_kernel a r) d, d).

(** ** Kernels of two points *)
Definition point := nat -> R.
(** linear_kernel 286, on scalars *)
Definition linear (x y hp1 hp2 hp3 : R) : R := hp1 + hp2 * (x - hp3) * (y - hp3).
(** dot_product_kernel 310, polynomial_kernel 332 (p a natural number) *)
Definition dot_product (D : nat) (x y : point) (hp : R) (M : nat -> nat -> R) : R :=
  hp + rsum (fun i => rsum (fun j => x i * M i j * y j) D) D.
Definition polynomial (D : nat) (x y : point) (p : nat) : R := (1 + rsum (fun i => x i * y i) D) ^ p.
(** get_distance_matrix 456-458, get_anisotropic_distance_matrix 479-481 *)
Definition distance (D : nat) (x y : point) : R := sqrt (rsum (fun i => (x i - y i) ^ 2) D).
Definition aniso_distance (D : nat) (x y : point) (hps : nat -> R) : R :=
  sqrt (rsum (fun i => Rabs ((x i - y i) / hps i) ^ 2) D).
(** _g 484-487, _dgdw 490-493, _dgdl 496-499; [m] basis points [x0], weights [w] *)
Definition basis (D : nat) (x : point) (x0 : point) (l : R) : R := exp (- (distance D x x0 ^ 2) / l).
Definition g (D m : nat) (x : point) (x0 : nat -> point) (w : nat -> R) (l : R) : R :=
  rsum (fun k => w k * basis D x (x0 k) l) m.
Definition dgdw (D : nat) (x : point) (x0 : nat -> point) (l : R) (k : nat) : R := basis D x (x0 k) l.
Definition dgdl (D m : nat) (x : point) (x0 : nat -> point) (w : nat -> R) (l : R) : R :=
  rsum (fun k => w k * basis D x (x0 k) l * (distance D x (x0 k) ^ 2 / l ^ 2)) m.
(** non_stat_kernel 404; non_stat_kernel_gradient 430-437, entry [k] of the first axis (m weights, then l) *)
Definition non_stat (D m : nat) (x y : point) (x0 : nat -> point) (w : nat -> R) (l : R) : R :=
  g D m x x0 w l * g D m y x0 w l.
Definition non_stat_gradient (D m : nat) (x y : point) (x0 : nat -> point) (w : nat -> R) (l : R) (k : nat) : R :=
  if (k <? m)%nat then dgdw D x x0 l k * g D m y x0 w l + dgdw D y x0 l k * g D m x x0 w l
  else dgdl D m x x0 w l * g D m y x0 w l + dgdl D m y x0 w l * g D m x x0 w l.

(** gp_prior.py _default_kernel 376-400 *)
Definition default_kernel (D : nat) (x y : point) (hps : nat -> R) : R :=
  hps O * matern1 (sqrt (rsum (fun i => Rabs ((x i - y i) / hps (S i)) ^ 2) D)) 1.
(** gp_prior.py _default_kernel_analytical_gradient 421-436: row [k] of the gradient; rows past D stay zero *)
Definition default_gradient (D : nat) (x y : point) (hps : nat -> R) (k : nat) : R :=
  let dm := sqrt (rsum (fun i => Rabs ((x i - y i) / hps (S i)) ^ 2) D) in
  match k with
  | O => matern1 dm 1
  | S dir =>
      if (dir <? D)%nat then
        let dddh := if Req_EM_T dm 0 then 0 else - Rabs (x dir - y dir) ^ 2 / (hps (S dir) ^ 3 * dm) in
        hps O * matern1_grad dm dddh
      else 0
  end.

(** ** Compact support *)
(** wendland_anisotropic 373-379 *)
Definition wendland_anisotropic (D : nat) (x y : point) (hps : nat -> R) : R :=
  let d := clip1 (sqrt (rsum (fun i => Rabs ((x i - y i) / hps (S i)) ^ 2) D)) in
  hps O * ((1 - d) ^ 8 * (32 * d ^ 3 + 25 * d ^ 2 + 8 * d + 1)).
(** _wendland_anisotropic_polynomial 527-528, wendland_anisotropic_gp2Scale_cpu 502-524 *)
Definition wendland_poly (d amplitude : R) : R := amplitude * (1 - d) ^ 8 * (32 * d ^ 3 + 25 * d ^ 2 + 8 * d + 1).
Definition wendland_dense (D : nat) (x y : point) (hps : nat -> R) : R :=
  wendland_poly (clip1 (sqrt (rsum (fun i => ((x i - y i) / hps (S i)) ^ 2) D))) (hps O).

(** The support-aware evaluation. A numpy array of shape (n, D) divided by one of shape (s): columns are matched when
    D = s, stretched when one of the two is 1, an error otherwise. *)
Inductive kerr := ShapeMismatch.
(** _whiten_gp2scale_points 642-646; the result: the number of columns and the scaled points *)
Definition whiten (D : nat) (xs : list point) (nh : nat) (hps : nat -> R) : res kerr (nat * list point) :=
  let s := Nat.pred nh in
  let col (n i : nat) := if (n =? 1)%nat then O else i in
  if (D =? s)%nat || (D =? 1)%nat || (s =? 1)%nat
  then Ok (if (D =? 1)%nat then s else D, map (fun x i => x (col D i) / hps (S (col s i))) xs)
  else Err ShapeMismatch.
(** np.min / np.max along the first axis of a non-empty array, column i *)
Definition colmin (z : list point) (i : nat) : R :=
  match z with [] => 0 | a :: t => fold_left (fun m b => Rmin m (b i)) t (a i) end.
Definition colmax (z : list point) (i : nat) : R :=
  match z with [] => 0 | a :: t => fold_left (fun m b => Rmax m (b i)) t (a i) end.
(** _gp2scale_whitened_block_distance 649-655 *)
Definition block_distance (D : nat) (z1 z2 : list point) : R :=
  sqrt (rsum (fun i => Rmax 0 (Rmax (colmin z1 i - colmax z2 i) (colmin z2 i - colmax z1 i)) ^ 2) D).
Definition triplet := (R * nat * nat)%type.
Definition nthp (l : list point) (i : nat) : point := nth i l (fun _ => 0).
Section Sparse.
(** cKDTree.query_ball_tree(r = 1): for each row of the first tree, the list of neighbours in the second *)
Variable query : nat -> list point -> list point -> list (list nat).
(** _wendland_triplets_from_neighbor_lists 619-635 *)
Fixpoint triplets_from (row : nat) (nl : list (list nat)) : list (nat * nat) :=
  match nl with [] => [] | cols :: t => map (fun c => (row, c)) cols ++ triplets_from (S row) t end.
Definition dist_sq (D : nat) (z1 z2 : list point) (p : nat * nat) : R :=
  rsum (fun i => (nthp z2 (snd p) i - nthp z1 (fst p) i) * (nthp z2 (snd p) i - nthp z1 (fst p) i)) D.
(** _wendland_support_aware_cpu_triplets 658-721 *)
Definition support_triplets (D : nat) (x1 x2 : list point) (nh : nat) (hps : nat -> R) : res kerr (list triplet) :=
  if (length x1 =? 0)%nat || (length x2 =? 0)%nat then Ok []
  else match whiten D x1 nh hps, whiten D x2 nh hps with
  | Ok (dz, z1), Ok (_, z2) =>
      if Rlt_dec 1 (block_distance dz z1 z2) then Ok []
      else
        let rc := triplets_from 0 (query dz z1 z2) in
        let inside := filter (fun p => if Rle_dec (dist_sq dz z1 z2 p) 1 then true else false) rc in
        let vals := map (fun p => (wendland_poly (sqrt (Rmin (dist_sq dz z1 z2 p) 1)) (hps O), fst p, snd p)) inside in
        Ok (filter (fun t => if Req_EM_T (fst (fst t)) 0 then false else true) vals)
  | Err e, _ => Err e
  | _, Err e => Err e
  end.
(** wendland_anisotropic_gp2Scale_cpu_sparse 724-738: the COO matrix; entry (i,j) of its dense form adds up the
    triplets stored for (i,j) *)
Fixpoint coo_entry (ts : list triplet) (i j : nat) : R :=
  match ts with
  | [] => 0
  | (v, r, c) :: t => (if (r =? i)%nat && (c =? j)%nat then v else 0) + coo_entry t i j
  end.
End Sparse.

(** bump 912-918 *)
Definition bump (d r beta ampl : R) : R :=
  let a := 1 - d ^ 2 / r ^ 2 in
  if Rlt_dec 0 a then ampl * exp (- beta / a + beta) else 0.
(** sle_kernel 945-956; [m] training points; cdist is the Euclidean distance of the embeddings *)
Definition embed (D : nat) (xdata : nat -> point) (hps : nat -> R) (x : point) (k : nat) : R :=
  bump (distance D x (xdata k)) (hps 1%nat) (hps 2%nat) 1.
Definition sle_kernel (D m : nat) (xdata : nat -> point) (x y : point) (hps : nat -> R) : R :=
  hps O * exp (- (distance m (embed D xdata hps x) (embed D xdata hps y) ^ 2) / hps 3%nat).

(** wasserstein_1d 843-862: normalize, sort, compare position by position *)
Definition lsumR (l : list R) : R := fold_right Rplus 0 l.
Fixpoint insert (a : R) (l : list R) : list R :=
  match l with [] => [a] | b :: t => if Rle_dec a b then a :: b :: t else b :: insert a t end.
Definition sortR (l : list R) : list R := fold_right insert [] l.
Definition normalizeR (l : list R) : list R := map (fun v => v / lsumR l) l.
Definition wasserstein_1d (a b : list R) : R :=
  lsumR (map (fun p => Rabs (fst p - snd p)) (combine (sortR (normalizeR a)) (sortR (normalizeR b)))) / INR (length a).
