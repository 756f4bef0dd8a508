(** Specification vocabulary for the derived GP state. *)
From Verif Require Import Model.Prelude Model.GPState.

Section GPStateSpec.
  Context {P F H : Type}.
  (** a kernel callable that acts entry by entry through a symmetric covariance function *)
  Definition symmetric_kernel (kernel : list P -> list P -> H -> list (list F)) : Prop :=
    exists k : P -> P -> H -> F,
      (forall x y h, k x y h = k y x h) /\
      (forall xs ys h, kernel xs ys h = map (fun x => map (fun y => k x y h) ys) xs).
  (** a mean callable that acts point by point (the default mean does not, it averages y) *)
  Definition pointwise_mean (f : list P -> H -> list F) : Prop :=
    exists mu : P -> H -> F, forall xs h, f xs h = map (fun x => mu x h) xs.
  (** a noise callable that acts point by point, giving a diagonal, or pair by pair, giving a
      symmetric matrix *)
  Definition local_noise (f : list P -> H -> @noise_value F) : Prop :=
    (exists nu : P -> H -> F, forall xs h, f xs h = VDiag (map (fun x => nu x h) xs)) \/
    (exists nu : P -> P -> H -> F, (forall x y h, nu x y h = nu y x h) /\
        forall xs h, f xs h = VFull (map (fun x => map (fun y => nu x y h) xs) xs)).
  (** noise models for which old noise values do not move when data are appended *)
  Definition stable_noise (n : @noise_model P F H) : Prop :=
    match n with NoiseFun f => local_noise f | NoiseMeasured => True | NoiseDefault => False end.
  (** every update supplied one noise value per point *)
  Definition aligned (o : @gop P F H) : Prop :=
    match o with
    | GAppend _ x _ nv | GOverwrite x _ nv => length nv = length x
    | GSetHps _ => True end.
End GPStateSpec.

(** What the data and hyperparameters are after a history of updates. *)
Section History.
  Context {P F H : Type}.
  Record dataset := DS { ds_x : list P; ds_y : list F; ds_nv : list F; ds_h : H }.
  Definition ds_step (d : dataset) (o : @gop P F H) : dataset :=
    match o with
    | GAppend _ x y nv => DS (ds_x d ++ x) (ds_y d ++ y) (ds_nv d ++ nv) (ds_h d)
    | GOverwrite x y nv => DS x y nv (ds_h d)
    | GSetHps h => DS (ds_x d) (ds_y d) (ds_nv d) h
    end.
  Definition history (d : dataset) (os : list gop) : dataset := fold_left ds_step os d.
End History.
