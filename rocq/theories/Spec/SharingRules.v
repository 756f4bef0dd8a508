(** Rules a calling program can follow with respect to shared arrays. *)
From Verif Require Import Model.Prelude Spec.SharingSpec Model.Sharing.

Section Rules.
  Context {A W : Type} (dummy : A).
  Variables (join : A -> A -> A) (kern : A -> A -> A) (kern_block : A -> A -> A -> A -> A) (mean : A -> A -> A -> A)
    (mean_append : A -> A -> A -> A -> A -> A) (factor : A -> A -> A -> A -> W) (refactor : W -> A -> A -> A -> A -> W)
    (post : A -> A -> A -> W -> A -> A).
  Notation state := (@st A W).
  Notation Exec := (exec dummy join kern kern_block mean mean_append factor refactor post).

  (** appending gives what building from the joined data gives (proved for the code's own functions as C06 to C08) *)
  Definition append_exact : Prop :=
    (forall xo xn h, kern_block (kern xo h) xo xn h = kern (join xo xn) h) /\
    (forall xo yo xn yn h, mean_append (mean xo yo h) xn (join xo xn) (join yo yn) h = mean (join xo xn) (join yo yn) h) /\
    (forall xo yo no xn yn nn h,
      let K := kern (join xo xn) h in let m := mean (join xo xn) (join yo yn) h in
      refactor (factor (kern xo h) (mean xo yo h) no yo) K m (join no nn) (join yo yn) = factor K m (join no nn) (join yo yn)).
  (** the posterior mean at q of a GP newly built from x, y, n, h *)
  Definition fresh_answer (x y n h q : A) : A := post x y h (factor (kern x h) (mean x y h) n y) q.

  (** variables are bound before they are used, and the object exists *)
  Definition bound (s : state) (c : @op A) : Prop :=
    let ok x := x < length (env s) in
    match c with
    | New _ => True
    | Write x _ => ok x
    | Init x y n h => ok x /\ ok y /\ ok n /\ ok h
    | Append x y n _ | Overwrite x y n => gp s <> None /\ ok x /\ ok y /\ ok n
    | SetHps x | Predict x => gp s <> None /\ ok x
    | _ => gp s <> None
    end.
  Fixpoint runs (s : state) (p : list (@op A)) : Prop :=
    match p with [] => True | c :: r => bound s c /\ runs (Exec s c) r end.
  (** nothing is written into an array that the object currently holds *)
  Definition harmless (s : state) (c : @op A) : Prop :=
    match c, gp s with Write x _, Some o => ~ In (loc s x) (held o) | _, _ => True end.
  Fixpoint safe (s : state) (p : list (@op A)) : Prop :=
    match p with [] => True | c :: r => harmless s c /\ safe (Exec s c) r end.

  (** ** a rule on the text of the program *)
  (** variables whose array the object may hold: passed to the constructor, to an overwrite or as hyperparameters, or obtained from
      the object *)
  Definition keeps (k : nat) (c : @op A) : list var :=
    match c with
    | Init x y n h => [x; y; n; h]
    | Overwrite x y n => [x; y; n]
    | SetHps h => [h]
    | Train _ | GetX | GetY | GetN | GetH | GetK | GetM => [k]
    | _ => []
    end.
  Definition binds (c : @op A) : nat :=
    match c with New _ | Train _ | GetX | GetY | GetN | GetH | GetK | GetM | Predict _ => 1 | _ => 0 end.
  (** [k] variables bound so far, [kept] those that may be held; writes and later hand-overs respect it *)
  Fixpoint tame (k : nat) (kept : list var) (p : list (@op A)) : Prop :=
    match p with
    | [] => True
    | c :: r => match c with Write x _ => ~ In x kept | _ => True end /\ tame (binds c + k) (keeps k c ++ kept) r
    end.

End Rules.
