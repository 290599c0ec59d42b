(** Decision procedures for the hypotheses of theorems, used on concrete robots in the
    examples. *)
From Coq Require Import List Arith ZArith Bool String Lia.
From Verif Require Import Scalar Base Spatial SpecGeo Joint Body Kin InvDyn Ops Specs SpecCache SpecKin SpecDyn Opspace Instances Samples.
Import ListNotations.

Section Checks.
Context {S : Scal} {E : EqSound S}.
Definition m3eqb (a b : m3) : bool := v3eqb (r0 a) (r0 b) && v3eqb (r1 a) (r1 b) && v3eqb (r2 a) (r2 b).
Lemma v3eqb_ok (a b : v3) : v3eqb a b = true -> a = b.
Proof.
  destruct a, b. unfold v3eqb. cbn. intros H. apply andb_true_iff in H. destruct H as [H H3]. apply andb_true_iff in H. destruct H as [H1 H2].
  apply keq_sound in H1, H2, H3. subst; auto.
Qed.
Lemma m3eqb_ok (a b : m3) : m3eqb a b = true -> a = b.
Proof.
  destruct a, b. unfold m3eqb. cbn. intros H. apply andb_true_iff in H. destruct H as [H H3]. apply andb_true_iff in H. destruct H as [H1 H2].
  apply v3eqb_ok in H1, H2, H3. subst; auto.
Qed.
Definition rigidb (T : iso) : bool := m3eqb (m3mul (rot T) (m3tr (rot T))) m3id && keq (m3det (rot T)) k1.
Lemma rigidb_ok T : rigidb T = true -> rigid T.
Proof.
  unfold rigidb. intros H. apply andb_true_iff in H. destruct H as [H1 H2]. split; [apply m3eqb_ok; auto|apply keq_sound; auto].
Qed.
Definition rigid_robotb (ab : body) : bool := rigidb (ab_Tbase ab) && forallb (fun rb => rigidb (rb_T rb)) (ab_rbs ab).
Lemma rigid_robotb_ok ab : rigid_robotb ab = true -> rigid_robot ab.
Proof.
  unfold rigid_robotb. intros H. apply andb_true_iff in H. destruct H as [H1 H2]. split; [apply rigidb_ok; auto|].
  rewrite forallb_forall in H2. apply Forall_forall. intros x Hx. apply rigidb_ok. auto.
Qed.
Definition isymb (B : inertia) : bool := m3eqb (m3tr (iI B)) (iI B).
Definition properb (ab : body) : bool :=
  rigid_robotb ab &&
  forallb (fun k => klt k0 (total (map imass (bodies_on ab k))) && forallb isymb (bodies_on ab k)) (seq 0 (ab_dof ab)).
Lemma properb_ok ab : properb ab = true -> proper ab.
Proof.
  unfold properb. intros H. apply andb_true_iff in H. destruct H as [H1 H2]. rewrite forallb_forall in H2.
  constructor; [apply rigid_robotb_ok; auto| |].
  - intros k Hk. assert (I : In k (seq 0 (ab_dof ab))) by (apply in_seq; lia). specialize (H2 k I). apply andb_true_iff in H2. tauto.
  - intros k Hk. assert (I : In k (seq 0 (ab_dof ab))) by (apply in_seq; lia). specialize (H2 k I). apply andb_true_iff in H2. destruct H2 as [_ H2].
    rewrite forallb_forall in H2. apply Forall_forall. intros B HB. apply m3eqb_ok. apply H2; auto.
Qed.
End Checks.
(** Taking an answer apart. *)
Definition answer_vec (r : res (@answer QcScal)) : list (@K QcScal) := match r with Ok (AVec l) => l | _ => [] end.
Definition answer_mat (r : res (@answer QcScal)) : list (list (@K QcScal)) := match r with Ok (AMat l) => l | _ => [] end.
Definition answer_of (r : res (@answer QcScal)) : @answer QcScal := match r with Ok a => a | _ => AVec [] end.
Lemma answer_vec_ok r : match r with Ok (AVec _) => true | _ => false end = true -> r = Ok (AVec (answer_vec r)).
Proof. destruct r as [[]| |]; try discriminate; auto. Qed.
Lemma answer_mat_ok r : match r with Ok (AMat _) => true | _ => false end = true -> r = Ok (AMat (answer_mat r)).
Proof. destruct r as [[]| |]; try discriminate; auto. Qed.
Definition answer_null (r : res (@answer QcScal)) : list (@K QcScal) := match r with Ok (ANull _ l) => l | _ => [] end.
Lemma answer_null_ok r : match r with Ok (ANull None _) => true | _ => false end = true -> r = Ok (ANull None (answer_null r)).
Proof. destruct r as [[]| |]; try discriminate. destruct N; try discriminate. auto. Qed.
Lemma ask_split (r : res (@body QcScal * @answer QcScal)) (d : @body QcScal) :
  match r with Ok (_, AVec _) => true | _ => false end = true ->
  r = Ok (match r with Ok (b, _) => b | _ => d end, AVec (answer_vec (outcome r))).
Proof. destruct r as [[a []]| |]; try discriminate; auto. Qed.
Lemma ask_split_any (r : res (@body QcScal * @answer QcScal)) (d : @body QcScal) :
  match r with Ok _ => true | _ => false end = true ->
  r = Ok (match r with Ok (b, _) => b | _ => d end, answer_of (outcome r)).
Proof. destruct r as [[a x]| |]; try discriminate; auto. Qed.
(** The robot after a concrete history, with another pseudo-inverse. *)
Definition robot_with pinv (h : list (@op QcScal)) : @body QcScal :=
  match run solve0 pinv h (body_new "r" (junk (qz 7))) with Some ab => ab | None => body_new "none" (junk (qz 7)) end.
Lemma robot_with_reached pinv (h : list (@op QcScal)) :
  is_some (run solve0 pinv h (body_new "r" (junk (qz 7)))) = true -> reached solve0 pinv h (robot_with pinv h).
Proof. intros H. exists "r"%string, (junk (qz 7)). unfold robot_with. destruct (run _ _ _ _); [auto|discriminate]. Qed.
