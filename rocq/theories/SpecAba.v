(** Specifications: the articulated-body algorithm (C18-C22, C45). *)
From Coq Require Import List Arith ZArith Bool.
From Verif Require Import Scalar Base Spatial SpecGeo Joint Body Kin InvDyn FwdDyn Ops Instances Specs SpecCache SpecKin SpecDyn.
Import ListNotations.

Section SpecAba.
Context {S : Scal}.
Local Open Scope k_scope.

Definition children (ab : body) (i : nat) : list nat :=
  filter (fun c => match par ab c with Some p => Nat.eqb p i | None => false end) (seq 0 (ab_dof ab)).

(** What is left of a 6 x 6 inertia [A] after its own joint, with axis [s], yields
    freely: A - A s s' A / (s' A s). *)
Definition yields (A : i6) (s : motion) : i6 := i6sub A (i6outer (i6mul A s) (mdot s (i6mul A s))).
(** Featherstone's articulated-body inertia of the subtree of link [i]: the bodies
    on the link, plus what its children's subtrees resist. *)
Fixpoint articulated_ (ab : body) (height i : nat) : i6 :=
  match height with
  | O => i6_of (inertia_at ab i)
  | Datatypes.S k =>
    fold_right (fun c A => i6add A (i6act (T_par_q ab c (coef (ab_q ab) c)) (yields (articulated_ ab k c) (sub_at ab c))))
               (i6_of (inertia_at ab i)) (children ab i)
  end.
Definition articulated (ab : body) (i : nat) : i6 := articulated_ ab (ab_dof ab) i.
(** The inertia felt by joint [i] when the joints beyond it are free. *)
Definition joint_inertia (ab : body) (i : nat) : K :=
  mdot (sub_at ab i) (i6mul (articulated ab i) (sub_at ab i)).

(** Every joint feels some inertia. *)
Definition articulable (ab : body) : Prop := forall i, (i < ab_dof ab)%nat -> joint_inertia ab i <> 0.

(** The queries of opspace_dynamics_aba.cc. *)
Definition opspace_aba (o : op) : bool :=
  match o with OAsk (QaLinv _ _ | QaLambda _ _ _ | QaCC _ _ _ | QaGrav _ _ _ _) => true | _ => false end.
Definition load_op (o : op) : bool :=
  match o with OAddLoad _ _ | OReplaceLoad _ _ => true | _ => false end.
(** A history does not mix the operational-space articulated-body queries with loads. *)
Definition unmixed (h : list op) : bool :=
  forallb (fun o => negb (opspace_aba o)) h || forallb (fun o => negb (load_op o)) h.

(** The links form one chain: link 0 on the base, every other link on the one before. *)
Definition serial (ab : body) : Prop :=
  forall i, (i < ab_dof ab)%nat -> rb_parent (rb_at ab i) = (Z.of_nat i - 1)%Z.
(** One of the links is an ancestor of the other, or they are the same. *)
Definition related (ab : body) (i j : nat) : Prop := In i (anc_at ab j) \/ In j (anc_at ab i).
(** [A] times [B] is the identity. *)
Definition inverse_of (n : nat) (A B : list (list K)) : Prop :=
  forall i j, (i < n)%nat -> (j < n)%nat ->
    total (map (fun k => entry A i k * entry B k j) (seq 0 n)) = if Nat.eqb i j then 1 else 0.
(** Articulated-body forward dynamics, and inverse dynamics, undo each other. *)
Definition aba_inverts (solve : list (list K) -> list K -> list K) (pinv : list (list K) -> K -> list (list K) * bool)
    (fe : fmap) (o : id_opts) (ab ab_id : body) : Prop :=
  (forall tau, List.length tau = ab_dof ab -> exists ddq,
     outcome (ask solve pinv (QAba tau fe o) ab) = Ok (AVec ddq) /\
     outcome (ask solve pinv (QID ddq fe o) ab_id) = Ok (AVec tau)) /\
  (forall ddq, List.length ddq = ab_dof ab -> exists tau,
     outcome (ask solve pinv (QID ddq fe o) ab_id) = Ok (AVec tau) /\
     outcome (ask solve pinv (QAba tau fe o) ab) = Ok (AVec ddq)).
(** The Moore-Penrose conditions on an n x n matrix and its pseudo-inverse. *)
Definition penrose (n : nat) (M X : list (list K)) : Prop :=
  let prod := fun A B i j => total (map (fun k => A i k * B k j) (seq 0 n)) in
  let m := entry M in let x := entry X in
  forall i j, (i < n)%nat -> (j < n)%nat ->
    prod (prod m x) m i j = m i j /\ prod (prod x m) x i j = x i j /\
    prod m x i j = prod m x j i /\ prod x m i j = prod x m j i.

End SpecAba.

(** Over the reals: every link is a solid body on a joint that moves it, and no load
    has negative mass or an indefinite rotational inertia. *)
Definition firm (ab : @body RScal) : Prop := forall k, (k < ab_dof ab)%nat ->
  solid (rb_inertia (nth k (ab_rbs ab) rb_default)) /\ Forall massive (bodies_on ab k) /\
  jsub (rb_joint (nth k (ab_rbs ab) rb_default)) <> mzero.
