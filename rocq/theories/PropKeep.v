(** C72: links kept in Python variables *)
From Coq Require Import List Arith ZArith Bool Lia String QArith Qcanon.
From Verif Require Import Scalar Base Spatial Joint Body Ops Instances PyEdit PyKeep SpecPyKeep Samples KeepProofs.
Import ListNotations.
Local Open Scope nat_scope.

(** However the storage of the links grows: a program that does not fail does and shows
    what it would if variables were numbers of links. *)
Theorem C72_meant : forall {S : Scal} solve pinv grow p name mem s, k_run solve pinv grow p (k_new name mem) = Some s ->
  m_did (m_run solve pinv p (m_new name mem)) = Some (k_ab s, k_out s).
Proof. exact @c72_meant. Qed.
Print Assumptions C72_meant.
(** Build the robot first, keep links afterwards: such a program does and shows what is
    meant, and is undefined only if its meaning is. *)
Theorem C72_build_first : forall {S : Scal} solve pinv grow, (forall n, n < grow n) -> forall h p name mem,
  forallb (fun t => negb (keeps t)) h = true -> forallb (fun t => negb (adds t)) p = true ->
  k_did (k_run solve pinv grow (h ++ p) (k_new name mem)) = m_did (m_run solve pinv (h ++ p) (m_new name mem)).
Proof. exact @c72_build_first. Qed.
Print Assumptions C72_build_first.
(** Links may be added while others are kept as long as the storage has room. *)
Theorem C72_room : forall {S : Scal} solve pinv grow, (forall n, n < grow n) -> forall h p name mem s m',
  k_run solve pinv grow h (k_new name mem) = Some s -> forallb (fun t => negb (keeps t)) h = true ->
  m_run solve pinv (h ++ p) (m_new name mem) = Some m' -> links (m_ab m') <= k_cap s ->
  k_did (k_run solve pinv grow (h ++ p) (k_new name mem)) = Some (m_ab m', m_out m').
Proof. exact @c72_room. Qed.
Print Assumptions C72_room.
(** Beyond that, every link kept before is lost: reading it, assigning to its attributes
    and adding it to the robot are all undefined behaviour. *)
Theorem C72_dangling : forall {S : Scal} solve pinv grow, (forall n, n < grow n) -> forall h s x z i p s',
  (exists name mem, k_run solve pinv grow h (k_new name mem) = Some s) ->
  idx (links (k_ab s)) z = Some i -> k_run solve pinv grow (KKeep x z :: p) s = Some s' -> forallb (fun t => negb (assigns x t)) p = true ->
  k_cap s < links (k_ab s') ->
  k_step solve pinv grow (KShow x) s' = None /\ (forall e, k_step solve pinv grow (KEdit x e) s' = None) /\
  (forall q, k_step solve pinv grow (KAdd x q) s' = None).
Proof. exact @c72_dangling. Qed.
Print Assumptions C72_dangling.
(** No way of growing avoids this. *)
Theorem C72_eventually : forall {S : Scal} solve pinv grow, (forall n, n < grow n) -> forall h s x z i rb,
  (exists name mem, k_run solve pinv grow h (k_new name mem) = Some s) -> idx (links (k_ab s)) z = Some i ->
  k_run solve pinv grow (KKeep x z :: repeat (KCall (OAdd rb (-1))) (k_cap s) ++ [KShow x]) s = None.
Proof. exact @c72_eventually. Qed.
Print Assumptions C72_eventually.

(** Storage that doubles, as GNU's library has it.  Three links have room for a fourth:
    the last one is kept, a fourth added, and the kept one (still the third) made heavier
    and shown.  After a fifth it is lost. *)
Definition doubling (n : nat) : nat := match n with 0 => 1 | _ => 2 * n end.
Lemma doubling_grows n : n < doubling n.
Proof. destruct n; cbn; lia. Qed.
Definition limb (name : string) (p : Z) : @kstmt QcScal := KCall (OAdd (q_link name JPx iso_id 1) p).
Definition three : list (@kstmt QcScal) := [limb "a" (-1); limb "b" 0; limb "c" 1].
Definition edits : list (@kstmt QcScal) := [KKeep 7 (-1); KAdd 7 2; KEdit 7 (EMass (qz 5)); KShow 7; KShow 8].
Definition masses (r : option (@kstate QcScal)) : option (list (Z * Z) * list (string * (Z * Z)) * nat) :=
  option_map (fun s => (map (fun rb => frac (imass (rb_inertia rb))) (ab_rbs (k_ab s)), map (fun rb => (rb_name rb, frac (imass (rb_inertia rb)))) (k_out s), k_cap s)) r.
Definition empty : @kstate QcScal := k_new "r" (junk (qz 7)).
Example C72_example :
  masses (k_run solve0 pinv0 doubling three empty) = Some ([(1, 1); (1, 1); (1, 1)], [], 4%nat)%Z /\
  masses (k_run solve0 pinv0 doubling (three ++ edits) empty) = Some ([(1, 1); (1, 1); (5, 1); (1, 1)], [("c"%string, (5, 1))], 4%nat)%Z /\
  masses (k_run solve0 pinv0 doubling (three ++ edits ++ [limb "e" 0]) empty) = Some ([(1, 1); (1, 1); (5, 1); (1, 1); (1, 1)], [("c"%string, (5, 1))], 8%nat)%Z /\
  masses (k_run solve0 pinv0 doubling (three ++ edits ++ [limb "e" 0; KShow 7]) empty) = None /\
  match m_run solve0 pinv0 (three ++ edits ++ [limb "e" 0; KShow 7]) (m_new "r" (junk (qz 7))) with Some m => map rb_name (m_out m) = ["c"; "c"]%string | None => False end.
Proof. split; [vm_compute; reflexivity|]. split; [vm_compute; reflexivity|]. split; [vm_compute; reflexivity|]. split; vm_compute; reflexivity. Qed.
