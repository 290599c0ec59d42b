(** Operational-space algebra over any field. *)
From Coq Require Import List Arith ZArith Bool Lia.
From Verif Require Import Scalar Base Spatial SpecGeo Joint Body Kin InvDyn FwdDyn Opspace OpspaceAba Deriv Sim Ops Specs SpecCache SpecKin SpecDyn SpecOps SpatialProofs TreeProofs CacheProofs CacheOps BigSum DynProofs DynApi AbaApi OpsCache OpsApi.
Import ListNotations.

Section Alg.
Context {S : Scal} {L : ScalLaws S}.
Add Field kf : (@kfield S L).
Local Open Scope k_scope.

(** ** Matrices as functions *)
Definition fm (n : nat) (A B : nat -> nat -> K) (i j : nat) : K := ksum n (fun k => A i k * B k j).
Definition ft (A : nat -> nat -> K) (i j : nat) : K := A j i.
Definition eqm (r c : nat) (A B : nat -> nat -> K) : Prop := forall i j, (i < r)%nat -> (j < c)%nat -> A i j = B i j.
Lemma fm_assoc n m A B C i j : fm m (fm n A B) C i j = fm n A (fm m B C) i j.
Proof.
  unfold fm. rewrite (ksum_ext _ _ (fun k => ksum n (fun l => A i l * B l k * C k j))) by (intros; symmetry; apply ksum_scale_r).
  rewrite ksum_swap. apply ksum_ext. intros l Hl. rewrite <- ksum_scale. apply ksum_ext. intros k Hk. ring.
Qed.
Lemma fm_ext n A A' B B' i j : (forall k, (k < n)%nat -> A i k = A' i k) -> (forall k, (k < n)%nat -> B k j = B' k j) -> fm n A B i j = fm n A' B' i j.
Proof. intros H1 H2. apply ksum_ext. intros k Hk. rewrite H1, H2; auto. Qed.
Lemma fm_tr n A B i j : fm n A B i j = fm n (ft B) (ft A) j i.
Proof. apply ksum_ext. intros. unfold ft. ring. Qed.
Lemma fm_delta_l n B i j : (i < n)%nat -> fm n delta B i j = B i j.
Proof.
  intros H. unfold fm, delta. rewrite (ksum_ext _ _ (fun k => if Nat.eqb k i then B k j else 0)); [apply (ksum_single n i (fun k => B k j)); auto|].
  intros k Hk. rewrite Nat.eqb_sym. destruct (Nat.eqb_spec k i); ring.
Qed.
Lemma fm_delta_r n A i j : (j < n)%nat -> fm n A delta i j = A i j.
Proof.
  intros H. unfold fm, delta. rewrite (ksum_ext _ _ (fun k => if Nat.eqb k j then A i k else 0)); [apply (ksum_single n j (fun k => A i k)); auto|].
  intros k Hk. destruct (Nat.eqb_spec k j); ring.
Qed.
Lemma fm_sub_r n A B C i j : fm n A (fun a b => B a b - C a b) i j = fm n A B i j - fm n A C i j.
Proof.
  unfold fm. replace (ksum n (fun k => A i k * B k j) - ksum n (fun k => A i k * C k j)) with (ksum n (fun k => A i k * B k j) + (- (1)) * ksum n (fun k => A i k * C k j)) by ring.
  rewrite <- ksum_scale, <- ksum_add. apply ksum_ext. intros. ring.
Qed.
Lemma fm_sub_l n A B C i j : fm n (fun a b => B a b - C a b) A i j = fm n B A i j - fm n C A i j.
Proof. rewrite fm_tr. unfold ft. rewrite fm_sub_r. rewrite (fm_tr n B A), (fm_tr n C A). reflexivity. Qed.
Lemma fm_add_r n A B C i j : fm n A (fun a b => B a b + C a b) i j = fm n A B i j + fm n A C i j.
Proof. unfold fm. rewrite <- ksum_add. apply ksum_ext. intros. ring. Qed.
Lemma delta_sym i j : delta i j = delta j i.
Proof. unfold delta. rewrite Nat.eqb_sym. auto. Qed.
Lemma fm_zero_l n A B i j : (forall k, (k < n)%nat -> A i k = 0) -> fm n A B i j = 0.
Proof. intros H. apply ksum_zero. intros k Hk. rewrite H by auto. ring. Qed.

(** The inverse of a symmetric matrix is symmetric. *)
Lemma inv_sym m Li La : (forall i j, (i < m)%nat -> (j < m)%nat -> Li i j = Li j i) ->
  eqm m m (fm m Li La) delta -> eqm m m La (ft La).
Proof.
  intros HS H i j Hi Hj. unfold ft.
  (* La' = La' (Li La) = (La' Li) La = La, La' Li = (Li La)' = I *)
  assert (A : fm m (fm m (ft La) Li) La i j = La i j).
  { rewrite (fm_ext m _ delta _ La); [apply fm_delta_l; auto| |auto]. intros k Hk. rewrite fm_tr. unfold ft.
    transitivity (fm m Li La k i); [|rewrite H, delta_sym; auto]. apply fm_ext; auto. }
  rewrite fm_assoc in A. rewrite (fm_ext m _ (ft La) _ delta) in A; [|auto|intros; apply H; auto]. rewrite fm_delta_r in A by auto. symmetry. exact A.
Qed.

(** [J] is m x n, [X] = A^-1 J', [Li] = J X, [La] its inverse. *)
Section Task.
Variables (n m : nat) (A J X Li La : nat -> nat -> K).
Hypothesis AS : forall i j, (i < n)%nat -> (j < n)%nat -> A i j = A j i.
Hypothesis AX : eqm n m (fm n A X) (ft J).
Hypothesis LE : eqm m m Li (fm n J X).
Hypothesis I1 : eqm m m (fm m Li La) delta.
Hypothesis I2 : eqm m m (fm m La Li) delta.
Definition Jbf := fm m X La.
Definition Nf i j := delta i j - fm m Jbf J i j.

Lemma Li_sym i j : (i < m)%nat -> (j < m)%nat -> Li i j = Li j i.
Proof.
  intros Hi Hj. assert (E : forall a b, (a < m)%nat -> (b < m)%nat -> Li a b = fm n (ft X) (fm n A X) a b).
  { intros a b Ha Hb. rewrite LE by auto. rewrite <- fm_assoc. apply fm_ext; auto. intros k Hk.
    change (J a k) with (ft J k a). rewrite <- (AX k a) by auto. rewrite fm_tr. apply fm_ext; auto. intros l Hl. unfold ft. apply AS; auto. }
  rewrite !E by auto. rewrite fm_tr. rewrite <- fm_assoc. unfold ft at 2. apply fm_ext; auto. intros k Hk.
  unfold ft at 1. rewrite fm_tr. unfold ft. apply fm_ext; auto.
Qed.
Lemma La_sym i j : (i < m)%nat -> (j < m)%nat -> La i j = La j i.
Proof. intros Hi Hj. apply (inv_sym m Li La Li_sym I1 i j Hi Hj). Qed.
Lemma J_Jb : eqm m m (fm n J Jbf) delta.
Proof.
  intros i j Hi Hj. unfold Jbf. rewrite <- fm_assoc. rewrite <- I1 by auto. apply fm_ext; auto. intros k Hk. symmetry. apply LE; auto.
Qed.
Lemma J_N i j : (i < m)%nat -> (j < n)%nat -> fm n J Nf i j = 0.
Proof.
  intros Hi Hj. unfold Nf. rewrite fm_sub_r, fm_delta_r by auto. rewrite <- fm_assoc.
  rewrite (fm_ext m _ delta _ J) by (auto; intros; apply J_Jb; auto). rewrite fm_delta_l by auto. ring.
Qed.
Lemma N_N : eqm n n (fm n Nf Nf) Nf.
Proof.
  intros i j Hi Hj. unfold Nf at 1. rewrite fm_sub_l, fm_delta_l, fm_assoc by auto.
  replace (fm m Jbf (fm n J Nf) i j) with 0; [ring|]. symmetry. apply ksum_zero. intros k Hk. rewrite J_N by auto. ring.
Qed.
Lemma A_Jb k i : (k < n)%nat -> (i < m)%nat -> fm n A Jbf k i = fm m (ft J) La k i.
Proof. intros Hk Hi. unfold Jbf. rewrite <- fm_assoc. apply fm_ext; auto. Qed.
Lemma A_N i j : (i < n)%nat -> (j < n)%nat -> fm n A Nf i j = fm n A Nf j i.
Proof.
  assert (E : forall i j, (i < n)%nat -> (j < n)%nat -> fm n A Nf i j = A i j - fm m (fm m (ft J) La) J i j).
  { intros a b Ha Hb. unfold Nf. rewrite fm_sub_r, fm_delta_r by auto. f_equal. rewrite <- fm_assoc. apply fm_ext; auto. intros k Hk. apply A_Jb; auto. }
  intros Hi Hj. rewrite !E by auto. rewrite (AS i j) by auto. f_equal. rewrite fm_tr. rewrite (fm_assoc m m (ft J)). apply fm_ext; auto.
  intros k Hk. unfold ft at 1. rewrite fm_tr. unfold ft. apply fm_ext; auto. intros l Hl. apply La_sym; auto.
Qed.
(** Accelerations caused by a joint torque [t]: [a] solves A a = t. *)
Lemma task_acc a t i : (i < m)%nat -> (forall k, (k < n)%nat -> ksum n (fun l => A k l * a l) = t k) ->
  ksum n (fun k => J i k * a k) = ksum n (fun k => X k i * t k).
Proof.
  intros Hi H. change (fm n J (fun k _ => a k) i 0 = fm n (ft X) (fun k _ => t k) i 0).
  transitivity (fm n (ft X) (fm n A (fun k _ => a k)) i 0); [|apply fm_ext; auto; intros; apply H; auto].
  rewrite <- fm_assoc. apply fm_ext; auto. intros k Hk. change (J i k) with (ft J k i). rewrite <- AX by auto. rewrite fm_tr. apply fm_ext; auto.
  intros l Hl. unfold ft. apply AS; auto.
Qed.
(** Torque J'F gives the acceleration Li F. *)
Lemma acc_force F i : (i < m)%nat -> ksum n (fun k => X k i * ksum m (fun a => J a k * F a)) = ksum m (fun a => Li i a * F a).
Proof.
  intros Hi. change (fm n (ft X) (fm m (ft J) (fun a _ => F a)) i 0 = fm m Li (fun a _ => F a) i 0). rewrite <- fm_assoc. apply fm_ext; auto.
  intros k Hk. rewrite Li_sym, LE by auto. rewrite fm_tr. apply fm_ext; auto.
Qed.
(** Bias compensated in the task. *)
Lemma acc_bias B i : (i < m)%nat -> ksum m (fun a => Li i a * ksum n (fun k => Jbf k a * B k)) = ksum n (fun k => X k i * B k).
Proof.
  intros Hi. change (fm m Li (fm n (ft Jbf) (fun k _ => B k)) i 0 = fm n (ft X) (fun k _ => B k) i 0). rewrite <- fm_assoc. apply fm_ext; auto.
  intros k Hk. unfold ft at 2.
  transitivity (fm m (fm m Li La) (ft X) i k).
  - rewrite fm_assoc. apply fm_ext; auto. intros a Ha. unfold ft at 1, Jbf. rewrite fm_tr. apply fm_ext; auto. intros b Hb. unfold ft. apply La_sym; auto.
  - rewrite (fm_ext m _ delta _ (ft X)) by auto. rewrite fm_delta_l by auto. reflexivity.
Qed.
(** Torques in the range of N' do not accelerate the task. *)
Lemma acc_null y i : (i < m)%nat -> ksum n (fun k => X k i * ksum n (fun l => Nf l k * y l)) = 0.
Proof.
  intros Hi. change (fm n (ft X) (fm n (ft Nf) (fun l _ => y l)) i 0 = 0). rewrite <- fm_assoc. apply ksum_zero. intros k Hk.
  replace (fm n (ft X) (ft Nf) i k) with 0; [ring|]. symmetry. rewrite fm_tr. change (ft (ft Nf)) with Nf. change (ft (ft X)) with X.
  unfold Nf. rewrite fm_sub_l, fm_delta_l by auto. rewrite fm_assoc.
  replace (fm m Jbf (fm n J X) k i) with (X k i); [ring|].
  unfold Jbf. rewrite fm_assoc. rewrite (fm_ext m X X _ delta); [symmetry; apply fm_delta_r; auto|auto|].
  intros a Ha. rewrite <- (I2 a i) by auto. apply fm_ext; auto. intros. symmetry. apply LE; auto.
Qed.
End Task.
End Alg.
