(** Scalar instances: the reals (for derivatives and inequalities), executable
    rationals (for concrete examples), and IEEE binary64 (for rounding and NaN
    witnesses). *)
From Coq Require Import ZArith QArith Qcanon Reals Lra Lia Floats.SpecFloat.
From Verif Require Import Scalar.

(** ** Reals *)
Definition Rltb (x y : R) : bool := if Rlt_dec x y then true else false.
Definition Reqb (x y : R) : bool := if Req_EM_T x y then true else false.
(** Truncation towards zero. *)
Definition Rtrunc (x : R) : Z := if Rlt_dec x 0 then (- Int_part (- x))%Z else Int_part x.

Definition RScal : Scal := {|
  K := R; k0 := 0%R; k1 := 1%R;
  kadd := Rplus; kmul := Rmult; ksub := Rminus; kdiv := Rdiv; kopp := Ropp; kinv := Rinv;
  ksin := sin; kcos := cos; ksqrt := sqrt; kabs := Rabs;
  klt := Rltb; keq := Reqb;
  klit := fun n d => (IZR n / IZR (Zpos d))%R;
  ktrunc := Rtrunc |}.

Lemma Rltb_lt x y : Rltb x y = true <-> (x < y)%R.
Proof. unfold Rltb. destruct (Rlt_dec x y); split; intros; auto; discriminate. Qed.
Lemma Rltb_ge x y : Rltb x y = false <-> (y <= x)%R.
Proof. unfold Rltb. destruct (Rlt_dec x y); split; intros; try discriminate; try lra; auto. Qed.
Lemma Reqb_eq x y : Reqb x y = true <-> x = y.
Proof. unfold Reqb. destruct (Req_EM_T x y); split; intros; auto; discriminate. Qed.
Lemma Reqb_neq x y : Reqb x y = false <-> x <> y.
Proof. unfold Reqb. destruct (Req_EM_T x y); split; intros; auto; congruence. Qed.

#[global] Instance RLaws : ScalLaws RScal.
Proof.
  constructor; cbn.
  - exact Rfield.
  - intros x. pose proof (sin2_cos2 x) as H. unfold Rsqr in H. lra.
  - exact cos_0.
  - exact sin_0.
Qed.
#[global] Instance REq : EqSound RScal.
Proof. constructor. cbn. intros x y. apply Reqb_eq. Qed.
#[global] Instance RPos : PosLaws RScal.
Proof.
  constructor; cbn.
  - intros x y. rewrite !Rltb_lt. lra.
  - intros x. rewrite Rltb_lt. lra.
Qed.

(** ** Rationals, with the rational parametrisation of the circle in place of
    cosine and sine (cos and sin of 2 atan t). *)
Definition Qc_trunc (x : Qc) : Z := Z.quot (Qnum (this x)) (Zpos (Qden (this x))).
Definition Qc_sqrt (x : Qc) : Qc := Q2Qc (Z.sqrt (Qnum (this x)) # Z.to_pos (Z.sqrt (Zpos (Qden (this x))))).
Definition Qc_ltb (x y : Qc) : bool := match (this x ?= this y)%Q with Lt => true | _ => false end.
Definition Qc_abs (x : Qc) : Qc := if Qc_ltb x (Q2Qc 0) then (- x)%Qc else x.
Definition Qc_cos (t : Qc) : Qc := ((1 - t * t) / (1 + t * t))%Qc.
Definition Qc_sin (t : Qc) : Qc := ((t + t) / (1 + t * t))%Qc.

Definition QcScal : Scal := {|
  K := Qc; k0 := Q2Qc 0; k1 := Q2Qc 1;
  kadd := Qcplus; kmul := Qcmult; ksub := Qcminus; kdiv := Qcdiv; kopp := Qcopp; kinv := Qcinv;
  ksin := Qc_sin; kcos := Qc_cos; ksqrt := Qc_sqrt; kabs := Qc_abs;
  klt := Qc_ltb; keq := Qc_eq_bool;
  klit := fun n d => Q2Qc (n # d);
  ktrunc := Qc_trunc |}.

Lemma Qc_sq_nonneg (t : Qc) : (0 <= t * t)%Qc.
Proof.
  unfold Qcle. assert (E : (this (t * t)%Qc == this t * this t)%Q) by (apply Qred_correct).
  rewrite E. destruct t as [[n d] Ht]. unfold Qle, Qmult; cbn. nia.
Qed.
Lemma Qc_den_neq (t : Qc) : (1 + t * t)%Qc <> Q2Qc 0.
Proof.
  intros E. pose proof (Qc_sq_nonneg t) as H.
  assert (H1 : (1 <= 1 + t * t)%Qc).
  { pose proof (Qcplus_le_compat 1 1 0 (t * t) (Qcle_refl 1) H) as X. rewrite Qcplus_0_r in X. exact X. }
  rewrite E in H1. revert H1. unfold Qcle, Qle. cbn. lia.
Qed.

#[global] Instance QcLaws : ScalLaws QcScal.
Proof.
  constructor; cbn.
  - exact Qcft.
  - intros x. unfold Qc_cos, Qc_sin. pose proof (Qc_den_neq x). field. assumption.
  - apply Qc_is_canon. vm_compute. reflexivity.
  - apply Qc_is_canon. vm_compute. reflexivity.
Qed.
#[global] Instance QcEq : EqSound QcScal.
Proof. constructor. cbn. intros x y. apply Qc_eq_bool_correct. Qed.
Lemma Qc_ltb_lt x y : Qc_ltb x y = true <-> (x < y)%Qc.
Proof.
  unfold Qc_ltb, Qclt, Qlt, Qcompare. destruct (Z.compare_spec (Qnum x * QDen y) (Qnum y * QDen x)); split; auto; try discriminate; lia.
Qed.
#[global] Instance QcPos : PosLaws QcScal.
Proof.
  constructor; cbn.
  - intros x y. rewrite !Qc_ltb_lt. intros H1 H2.
    apply Qclt_le_trans with (x + 0)%Qc; [rewrite Qcplus_0_r; exact H1|].
    apply Qcplus_le_compat; [apply Qcle_refl|apply Qclt_le_weak; exact H2].
  - intros x. rewrite Qc_ltb_lt. intros H E. rewrite E in H. revert H. unfold Qclt, Qlt. cbn. lia.
Qed.

(** ** IEEE binary64.  Rounded +, -, *, /, sqrt and comparisons; sine, cosine and
    truncation to an integer, which the standard does not fix, are parameters. *)
Definition f64 := spec_float.
Definition f_add := SFadd 53 1024.
Definition f_of_Z (n : Z) : f64 := binary_normalize 53 1024 n 0 false.
Definition F64of (sn cs : f64 -> f64) (tr : f64 -> Z) : Scal := {|
  K := f64; k0 := S754_zero false; k1 := f_of_Z 1;
  kadd := SFadd 53 1024; kmul := SFmul 53 1024; ksub := SFsub 53 1024; kdiv := SFdiv 53 1024;
  kopp := SFopp; kinv := SFdiv 53 1024 (f_of_Z 1);
  ksin := sn; kcos := cs;
  ksqrt := SFsqrt 53 1024; kabs := SFabs;
  klt := SFltb; keq := SFeqb;
  klit := fun n d => SFdiv 53 1024 (f_of_Z n) (f_of_Z (Zpos d));
  ktrunc := tr |}.
(** For executions in which no joint rotates. *)
Definition F64 : Scal := F64of (fun _ => S754_zero false) (fun _ => f_of_Z 1) (fun _ => 0%Z).
