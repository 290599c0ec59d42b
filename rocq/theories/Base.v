(** Outcomes of API calls, arrays and loops. *)
From Coq Require Import List Arith ZArith Bool.
Import ListNotations.

(** Outcome of a C++ call: value, exception, or undefined behaviour (null
    dereference, out-of-range access, read of an uninitialised object, Eigen size
    mismatch)
    (every API call; e.g. articulated_body.cc:92-95 throws, 68-71 subscripts unchecked). *)
Inductive res (A : Type) : Type :=
| Ok (a : A)
| Throw
| UB.
Arguments Ok {A} a.
Arguments Throw {A}.
Arguments UB {A}.

(** Outcome of a mutating call: the object's state when the call returned or
    when the exception left it, or undefined behaviour
    (setters of joint.cc:62-125, articulated_body.cc:92-176). *)
Inductive mres (St A : Type) : Type :=
| Ret (s : St) (a : A)
| Exn (s : St)
| Bad.
Arguments Ret {St A} s a.
Arguments Exn {St A} s.
Arguments Bad {St A}.
(** The resulting state, forgetting the value (articulated_body.cc:92-176). *)
Definition settled {St A} (r : mres St A) : option St :=
  match r with Ret s _ => Some s | Exn s => Some s | Bad => None end.
(** As a step of a larger call
    (articulated_body.cc:92-176 called from simulation.cc:116-194 and the parsers). *)
Definition called {St A} (r : mres St A) : res St :=
  match r with Ret s _ => Ok s | Exn _ => Throw | Bad => UB end.

(** sequencing of C++ calls: an exception or undefined behaviour ends the caller; no particular lines *)
Definition bind {A B} (x : res A) (f : A -> res B) : res B :=
  match x with Ok a => f a | Throw => Throw | UB => UB end.

(** Contents of a [std::vector] / dynamic Eigen vector or matrix.  Sizes are
    tracked separately; entries never written hold arbitrary values
    (e.g. articulated_body_cache.h:22-139). *)
Definition arr (A : Type) := nat -> A.
(** assignment [v[i] = x], e.g. inverse_dynamics.cc:43-70 *)
Definition upd {A} (f : arr A) (i : nat) (x : A) : arr A := fun j => if Nat.eqb j i then x else f j.
(** dynamic matrix, e.g. crba_data_.A, articulated_body_cache.h:68-76 *)
Definition arr2 (A : Type) := nat -> nat -> A.
(** assignment [A(i,j) = x], e.g. inverse_dynamics.cc:246 *)
Definition upd2 {A} (f : arr2 A) (i j : nat) (x : A) : arr2 A :=
  fun a b => if Nat.eqb a i && Nat.eqb b j then x else f a b.

(** [for (i = 0; i < n; i++) st = f(i, st)] *)
Fixpoint for_up {St} (n : nat) (f : nat -> St -> St) (st : St) : St :=
  match n with O => st | Datatypes.S m => f m (for_up m f st) end.
(** [for (i = n - 1; i >= 0; i--) st = f(i, st)] *)
Fixpoint for_down {St} (n : nat) (f : nat -> St -> St) (st : St) : St :=
  match n with O => st | Datatypes.S m => for_down m f (f m st) end.

(** The first [n] entries, as a list
    (an Eigen::VectorXd of size n as returned to the caller, e.g. inverse_dynamics.cc:99). *)
Definition vec {A} (n : nat) (f : arr A) : list A := map f (seq 0 n).
(** an Eigen::MatrixXd as returned to the caller, e.g. inverse_dynamics.cc:223 *)
Definition mat {A} (r c : nat) (f : arr2 A) : list (list A) :=
  map (fun i => map (f i) (seq 0 c)) (seq 0 r).

(** [if (i < 0) i += dof()], on mathematical integers (no [int] overflow). *)
Definition norm_idx (n : nat) (i : Z) : Z := if (i <? 0)%Z then (i + Z.of_nat n)%Z else i.
(** A normalised index used to subscript an array of size [n]: out of range is
    [None] (e.g. articulated_body.cc:68-71). *)
Definition idx (n : nat) (i : Z) : option nat :=
  let j := norm_idx n i in
  if ((0 <=? j) && (j <? Z.of_nat n))%Z then Some (Z.to_nat j) else None.
(** [int] converted to [size_t] (64 bit), as happens to map keys. *)
Definition to_size (i : Z) : Z := (i mod 2 ^ 64)%Z.

(** assignment [v[n] = x] on a std::vector kept as a list, articulated_body.cc:270-272 *)
Fixpoint replace_nth {A} (n : nat) (x : A) (l : list A) : list A :=
  match l, n with
  | nil, _ => nil
  | _ :: t, O => x :: t
  | h :: t, Datatypes.S m => h :: replace_nth m x t
  end.
