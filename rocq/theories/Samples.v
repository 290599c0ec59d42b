(** Concrete robots and oracles used in the examples next to the theorems. *)
From Coq Require Import List Arith ZArith Bool String QArith Qcanon.
From Verif Require Import Scalar Base Spatial SpecGeo Joint Body Kin InvDyn FwdDyn Opspace OpspaceAba Deriv Sim Ops Instances.
Import ListNotations.

Section Junk.
Context {S : Scal}.
(** Some uninitialised memory. *)
Definition junk (x : K) : cache :=
  let v := V3 x x x in let m := M3 v v v in
  Cache (TD true (fun _ => Iso m v) true (fun _ => Iso m v)) (VD true (fun _ => Mot v v))
        (JD 0 v true (fun _ => Mot v v)) (CD true (fun _ => Mot v v) (fun _ => Frc v v) (fun _ => x))
        (GD true (fun _ => Frc v v) (fun _ => x)) (RD (fun _ => Mot v v) (fun _ => Frc v v))
        (BD true (fun _ => Inr x v m) (fun _ _ => x) true (fun _ _ => x))
        (AD true (fun _ => I6 m m m m) (fun _ => Frc v v) (fun _ => x) true (fun _ _ => x) (fun _ _ => Frc v v) (fun _ _ => Mot v v))
        (OD [] x true [] true [] [] false true []) (OAD 0 v x true [] true [] (fun _ _ => Frc v v) (fun _ _ => x))
        (DD [] x true (fun _ => Iso m v) (fun _ => Frc v v) true (fun _ => Iso m v) (fun _ => Frc v v) (fun _ => Frc v v)).

(** Gaussian elimination without pivoting, enough for positive definite matrices. *)
Definition row_sub (c : K) (p r : list K) : list K := map (fun '(a, b) => ksub b (kmul c a)) (combine p r).
Fixpoint gauss (n : nat) (A : list (list K * list K)) : list (list K) :=
  match n, A with
  | Datatypes.S n, (d :: p, b) :: A =>
    let A' := map (fun '(r, c) => match r with
                                  | x :: r => (row_sub (kdiv x d) p r, row_sub (kdiv x d) b c)
                                  | nil => (nil, c) end) A in
    let xs := gauss n A' in
    let s := fold_left (fun acc '(a, x) => row_sub a x acc) (combine p xs) b in
    map (fun y => kdiv y d) s :: xs
  | _, _ => nil
  end.
Definition solve0 (A : list (list K)) (b : list K) : list K :=
  List.concat (gauss (List.length A) (combine A (map (fun x => [x]) b))).
Definition inv0 (A : list (list K)) : list (list K) := gauss (List.length A) (combine A (lid (List.length A))).
Definition pinv0 (A : list (list K)) (eps : K) : list (list K) * bool := (inv0 A, false).
End Junk.

(** Rationals. *)
Definition qz (n : Z) : @K QcScal := Q2Qc (n # 1).
Definition qq (n : Z) (d : positive) : @K QcScal := Q2Qc (n # d).
Notation QV x y z := (@V3 QcScal (qz x) (qz y) (qz z)).

(** A quarter turn about z and a shift. *)
Definition q_iso : @iso QcScal :=
  Iso (M3 (QV 0 (-1) 0) (QV 1 0 0) (QV 0 0 1)) (QV 1 2 3).
Lemma q_iso_rigid : rigid q_iso.
Proof.
  unfold rigid, is_rot, q_iso, m3mul, m3tr, m3mulv, m3det, v3dot, v3cross, m3id; cbn [rot r0 r1 r2 vx vy vz].
  split; [apply (f_equal3 (@M3 QcScal)); apply (f_equal3 (@V3 QcScal))|]; apply Qc_is_canon; vm_compute; reflexivity.
Qed.
Definition q_inertia (m : Z) : @inertia QcScal := inertia_flat (qz m) (QV 1 0 2) (qz 3) (qz 4) (qz 5) (qz 1) (qz 0) (qz 1).

Definition q_link (name : string) (t : jtype) (T : iso) (m : Z) : @rigid_body QcScal :=
  Rb name [] (-1) (-1) T (q_inertia m) (joint_of t).

(** A branching robot: link 0 (revolute z) carries link 1 (prismatic x) and link 2
    (revolute y); link 3 (revolute x) sits on link 2. *)
Definition build : list (@op QcScal) :=
  [ OAdd (q_link "a" JRz iso_id 2) (-1);
    OAdd (q_link "b" JPx q_iso 1) 0;
    OAdd (q_link "c" JRy q_iso 3) 0;
    OAdd (q_link "nowhere" JRy q_iso 3) 7;
    OAdd (q_link "d" JRx q_iso 1) 2 ].
Definition pose : list (@op QcScal) :=
  [ OSetQ [qq 1 2; qz 1; qz 2; qq 1 3]; OSetDq [qz 1; qz 2; qz (-1); qz 3] ].

Definition is_some {A} (x : option A) : bool := match x with Some _ => true | None => false end.
Lemma is_some_ex {A} (x : option A) : is_some x = true -> exists a, x = Some a.
Proof. destruct x; eauto; discriminate. Qed.
Lemma reached_ex (h : list (@op QcScal)) (x : @K QcScal) :
  is_some (run solve0 pinv0 h (body_new "r" (junk x))) = true -> exists ab, reached solve0 pinv0 h ab.
Proof. intros H. apply is_some_ex in H. destruct H as [ab H]. exists ab. do 2 eexists. exact H. Qed.

(** The robot after a concrete history. *)
Definition robot_after (h : list (@op QcScal)) : @body QcScal :=
  match run solve0 pinv0 h (body_new "r" (junk (qz 7))) with Some ab => ab | None => body_new "none" (junk (qz 7)) end.
Lemma robot_after_reached (h : list (@op QcScal)) :
  is_some (run solve0 pinv0 h (body_new "r" (junk (qz 7)))) = true -> reached solve0 pinv0 h (robot_after h).
Proof. intros H. exists "r"%string, (junk (qz 7)). unfold robot_after. destruct (run _ _ _ _); [auto|discriminate]. Qed.
(** Numbers contained in an answer, as fractions. *)
Definition frac (x : @K QcScal) : Z * Z := (Qnum (this x), Zpos (Qden (this x))).
Definition fracs3 (v : @v3 QcScal) := [frac (vx v); frac (vy v); frac (vz v)].
Definition fracs (r : res (@answer QcScal)) : list (Z * Z) :=
  match r with
  | Ok (AV3 v) => fracs3 v
  | Ok (AM3 m) => fracs3 (r0 m) ++ fracs3 (r1 m) ++ fracs3 (r2 m)
  | Ok (AIso T) => fracs3 (r0 (rot T)) ++ fracs3 (r1 (rot T)) ++ fracs3 (r2 (rot T)) ++ fracs3 (tra T)
  | Ok (AVec l) => map frac l
  | Ok (AMat l) => map frac (List.concat l)
  | Ok (AMots l) => List.concat (map (fun m => fracs3 (mlin m) ++ fracs3 (mang m)) l)
  | _ => []
  end.
Lemma fracs_neq a b : fracs a <> fracs b -> a <> b.
Proof. intros H E. apply H. rewrite E. reflexivity. Qed.
