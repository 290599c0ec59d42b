(** Specifications: discrete dynamics (C47-C50). *)
From Coq Require Import List Arith ZArith Bool.
From Verif Require Import Scalar Base Spatial SpecGeo Joint Body Kin InvDyn FwdDyn Ops Discrete Specs SpecCache SpecKin SpecDyn.
Import ListNotations.

Section SpecDiscrete.
Context {S : Scal}.
Local Open Scope k_scope.

(** A robot in state [q], [dq], otherwise as [ab], that has never been queried. *)
Definition restart (ab : body) (q dq : list K) (mem : cache) : body :=
  Body (ab_name ab) (ab_graphics ab) (Some (all_clear mem)) (ab_dof ab) (ab_rbs ab) q dq (ab_g ab)
       (ab_loads ab) (ab_Tbase ab) (ab_Ibase ab) (ab_anc ab) (ab_sub ab).

(** The only number that compares equal to [x] is [x] (of doubles: every [x] but
    the two zeros). *)
Definition told_apart (x : K) : Prop := forall y, keq y x = true -> y = x.

(** The base is not moved once the robot has been queried or simulated. *)
Fixpoint dbase_fixed (asked : bool) (h : list dop) : bool :=
  match h with
  | nil => true
  | DOp (OSetBase _) :: h => negb asked && dbase_fixed asked h
  | DOp (OAsk _ | OIntegrate _ _ _ _ _ _) :: h => dbase_fixed true h
  | DOp _ :: h => dbase_fixed asked h
  | (DAsk _ _ _ _ | DInt _ _ _ _ _ _) :: h => dbase_fixed true h
  end.
(** No discrete integration (nothing remembered from one). *)
Definition no_integration (h : list dop) : bool :=
  forallb (fun o => match o with DInt _ _ _ _ _ _ => false | _ => true end) h.

(** All discrete queries are made with such steps. *)
Fixpoint dts_ok (h : list dop) : Prop :=
  match h with
  | nil => True
  | DAsk _ dt _ _ :: h => told_apart dt /\ dts_ok h
  | _ :: h => dts_ok h
  end.

(** [X k] is the pose of link [k] in configuration [q]. *)
Definition posed (ab : body) (q : list K) (X : nat -> iso) : Prop :=
  forall k, (k < ab_dof ab)%nat ->
    Orientation_q ab q (Z.of_nat k) = Ok (rot (X k)) /\ Position_q ab q (Z.of_nat k) v3zero = Ok (tra (X k)).
(** What [Y] looks like from [X]. *)
Definition seen_from (X Y : iso) : iso := iso_mul (iso_inv X) Y.
(** A velocity with the axes of [X]. *)
Definition in_axes (X : iso) (m : motion) : motion :=
  Mot (m3mulv (m3tr (rot X)) (mlin m)) (m3mulv (m3tr (rot X)) (mang m)).
(** A 6x6 matrix by blocks times a motion. *)
Definition apply6 (A : i6) (m : motion) : motion :=
  Mot (v3add (m3mulv (b11 A) (mlin m)) (m3mulv (b12 A) (mang m)))
      (v3add (m3mulv (b21 A) (mlin m)) (m3mulv (b22 A) (mang m))).

Section Log.
Variable log6 : iso -> motion.
Variable dlog6 : iso -> i6.
(** How the kinetic energy 1/2 v.Bv of the mean velocity v = Log(T)/dt over a step
    that displaces a body by [T] reacts to the variation [d]. *)
Definition action (B : inertia) (dt : K) (T : iso) (d : motion) : K :=
  mdot (apply6 (dlog6 T) d) (imul B (Mot (v3div (mlin (log6 T)) dt) (v3div (mang (log6 T)) dt))).

(** Going back is going the opposite way, to first order too. *)
Record reversible : Prop := {
  rv_log : forall T, rigid T -> log6 (iso_inv T) = mopp (log6 T);
  rv_dlog : forall T m, rigid T -> apply6 (dlog6 (iso_inv T)) m = apply6 (dlog6 T) (mact T m)
}.
(** On pure translations: the logarithm is the translation, and its derivative
    leaves a force along the translation, with any moment, alone. *)
Record straight : Prop := {
  st_log : forall t, log6 (Iso m3id t) = Mot t v3zero;
  st_dlog : forall t m f, v3cross t (flin f) = v3zero -> mdot (apply6 (dlog6 (Iso m3id t)) m) f = mdot m f
}.
End Log.

(** Only sliding joints. *)
Definition sliding_joints (ab : body) : Prop :=
  Forall (fun rb => In (jtyp (rb_joint rb)) [JPx; JPy; JPz]) (ab_rbs ab).

(** Lists of numbers as vectors. *)
Definition vmap2 (n : nat) (f : K -> K -> K) (a b : list K) : list K := map (fun i => f (coef a i) (coef b i)) (seq 0 n).

(** The acceleration that within [dt] turns the velocity of the robot into the one that
    takes it to [qn]. *)
Definition acceleration_to (ab : body) (dt : K) (qn : list K) : list K :=
  map (fun j => ((coef qn j - coef (ab_q ab) j) / dt - coef (ab_dq ab) j) / dt) (seq 0 (ab_dof ab)).

(** A discrete integration step, preceded by queries. *)
Record leg := Leg {
  l_before : list query;
  l_tau : list K; l_fe : fmap; l_grav : bool; l_eps : K; l_cap : nat
}.
End SpecDiscrete.

Section Travel.
Context {S : Scal}.
Local Open Scope k_scope.
Variable solve : list (list K) -> list K -> list K.
Variable pinv : list (list K) -> K -> list (list K) * bool.
Variable log6 : iso -> motion.
Variable dlog6 : iso -> i6.
Variable norm : list K -> K.

(** Make the steps, all of length [dt]; the robots after each of them.  [None] if a
    call is undefined behaviour or does not converge within its iterations. *)
Fixpoint travel (dt : K) (legs : list leg) (ab : body) : option (list body) :=
  match legs with
  | nil => Some nil
  | l :: legs =>
    match run solve pinv (map OAsk (l_before l)) ab with
    | None => None
    | Some ab =>
      match q_DiscreteIntegrate solve log6 dlog6 norm (l_tau l) dt (l_fe l) (l_grav l) (l_eps l) (l_cap l) ab with
      | Ok (ab', true) => match travel dt legs ab' with Some abs => Some (ab' :: abs) | None => None end
      | _ => None
      end
    end
  end.

(** [v] balances the torques [tau] over [dt] to within [eps]. *)
Definition balances (v : list K) (n : nat) (tau : list K) (dt eps : K) : Prop :=
  klt (norm (vmap2 n (fun x t => x - dt * t) v tau)) eps = true.
(** The two-step recurrence: from [qp] and the configuration of [ab] each step leads
    to a configuration for which the impulses of a robot that never remembered
    anything, moving from [qp] to its configuration, balance the torques; the velocity is
    the central difference; and afterwards impulses are computed as for a robot that
    came from the configuration before. *)
Fixpoint obeys (dt : K) (mem : cache) (qp : list K) (ab : body) (legs : list leg) (abs : list body) : Prop :=
  match legs, abs with
  | nil, nil => True
  | l :: legs, ab' :: abs =>
    let n := ab_dof ab in
    let came_from (p : list K) (a : body) := restart a (ab_q a) (vmap2 n (fun x y => (x - y) / dt) (ab_q a) p) mem in
    ab_dof ab' = n /\ ab_rbs ab' = ab_rbs ab /\
    (exists v, outcome (q_DiscreteID log6 dlog6 (ab_q ab') dt (l_fe l) (l_grav l) (came_from qp ab)) = Ok v /\
               balances v n (l_tau l) dt (l_eps l)) /\
    ab_dq ab' = vmap2 n (fun x y => (x - y) / (klit 2 1 * dt)) (ab_q ab') qp /\
    (forall qn fe grav, outcome (q_DiscreteID log6 dlog6 qn dt fe grav ab') =
                        outcome (q_DiscreteID log6 dlog6 qn dt fe grav (came_from (ab_q ab) ab'))) /\
    obeys dt mem (ab_q ab) ab' legs abs
  | _, _ => False
  end.
End Travel.
