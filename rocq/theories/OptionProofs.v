(** Inverse then forward dynamics with default options (C56). *)
From Coq Require Import List Arith ZArith Bool Lia Field.
From Verif Require Import Scalar Base Spatial Joint Body Kin InvDyn FwdDyn Opspace OpspaceAba Deriv Sim Ops Options Specs SpecCache SpecKin SpecDyn
  TreeProofs CacheProofs CacheOps KinProofs BigSum DynProofs DynApi DiscreteStill.
Import ListNotations.

Section OptionProofs.
Context {S : Scal} {L : ScalLaws S} {PL : PosLaws S}.
Local Open Scope k_scope.
Add Field kf : (@kfield S L).
Variable solve : list (list K) -> list K -> list K.
Variable pinv : list (list K) -> K -> list (list K) * bool.
Variables (h : list op) (ab : body) (fe : fmap).
Hypothesis R : reached solve pinv h ab.
Hypothesis B : base_fixed false h = true.
Hypothesis P : proper ab.

(** The two default calls share everything but C. *)
Lemma two_defaults ddq A C : List.length ddq = ab_dof ab -> outcome (ask solve pinv QInertia ab) = Ok (AMat A) ->
  outcome (ask solve pinv QCC ab) = Ok (AVec C) -> exists N tau tau',
  outcome (ask solve pinv (QID ddq fe id_default) ab) = Ok (AVec tau) /\ outcome (ask solve pinv (QID ddq fe fd_default) ab) = Ok (AVec tau') /\
  List.length tau = ab_dof ab /\ List.length tau' = ab_dof ab /\
  forall i, (i < ab_dof ab)%nat -> coef tau i = row_times (ab_dof ab) A ddq i + N i /\ coef tau' i = coef tau i + coef C i.
Proof.
  intros Hd HA HC.
  destruct (c14 solve pinv h ab ddq fe id_default R B P Hd) as (A1 & C1 & G1 & E1 & tau & HA1 & HC1 & HG1 & HE1 & HT & HF & _).
  destruct (c14 solve pinv h ab ddq fe fd_default R B P Hd) as (A2 & C2 & G2 & E2 & tau' & HA2 & HC2 & HG2 & HE2 & HT' & HF' & _).
  rewrite HA in HA1, HA2. rewrite HC in HC1, HC2. rewrite HG1 in HG2. rewrite HE1 in HE2.
  inversion HA1; inversion HA2; inversion HC1; inversion HC2; inversion HG2; inversion HE2; subst.
  specialize (HF eq_refl). specialize (HF' eq_refl). cbn [o_cc o_grav id_default fd_default] in HF, HF'.
  exists (fun i => coef G2 i + coef E2 i), tau, tau'. do 2 (split; [assumption|]). rewrite HF, HF', !vec_length. do 2 (split; [reflexivity|]).
  intros i Hi. rewrite !coef_vec by auto. unfold over_links, row_times. split; ring.
Qed.
Lemma answers : exists A C, outcome (ask solve pinv QInertia ab) = Ok (AMat A) /\ outcome (ask solve pinv QCC ab) = Ok (AVec C).
Proof.
  destruct (c14 solve pinv h ab (vec (ab_dof ab) (fun _ => 0)) fe id_default R B P (vec_length _ _)) as (A & C & G & E & t & HA & HC & _). eauto.
Qed.
Lemma coef_eq n (a b : list K) : List.length a = n -> List.length b = n -> (forall i, (i < n)%nat -> coef a i = coef b i) -> a = b.
Proof.
  revert n b. induction a as [|x a IH]; intros n [|y b] Ha Hb H; cbn in *; try congruence.
  destruct n as [|n]; [discriminate|]. f_equal; [apply (H 0%nat); lia|]. apply (IH n); try congruence. intros i Hi. apply (H (Datatypes.S i)); lia.
Qed.

Lemma c56 : exists A C, outcome (ask solve pinv QInertia ab) = Ok (AMat A) /\ outcome (ask solve pinv QCC ab) = Ok (AVec C) /\
  (solver_ok solve (ab_dof ab) A ->
   (forall ddq, List.length ddq = ab_dof ab -> exists tau ddq',
      outcome (ask solve pinv (QID ddq fe id_default) ab) = Ok (AVec tau) /\
      outcome (ask solve pinv (QFD tau fe fd_default) ab) = Ok (AVec ddq') /\
      forall i, (i < ab_dof ab)%nat -> row_times (ab_dof ab) A ddq i = row_times (ab_dof ab) A ddq' i + coef C i) /\
   (forall tau, List.length tau = ab_dof ab -> exists ddq tau',
      outcome (ask solve pinv (QFD tau fe fd_default) ab) = Ok (AVec ddq) /\
      outcome (ask solve pinv (QID ddq fe id_default) ab) = Ok (AVec tau') /\
      forall i, (i < ab_dof ab)%nat -> coef tau i = coef tau' i + coef C i)).
Proof.
  destruct answers as (A & C & HA & HC). exists A, C. split; [exact HA|]. split; [exact HC|]. intros SO.
  destruct (c17 solve pinv h ab fe fd_default R B P eq_refl) as (A' & HA' & X). rewrite HA in HA'. inversion HA'; subst A'.
  destruct (X SO) as [X1 _]. clear X.
  assert (FD : forall tau ddq, outcome (ask solve pinv (QFD tau fe fd_default) ab) = Ok (AVec ddq) ->
             outcome (ask solve pinv (QID ddq fe fd_default) ab) = Ok (AVec tau) -> List.length ddq = ab_dof ab).
  { intros tau ddq _ H. cbn [ask] in H. rewrite outcome_wrap in H. unfold q_InverseDynamics in H.
    destruct (Nat.eqb_spec (List.length ddq) (ab_dof ab)); [assumption|discriminate H]. }
  split.
  - intros ddq Hd. destruct (two_defaults ddq A C Hd HA HC) as (N & tau & t0 & H1 & H0 & Ht & Ht0 & HN).
    destruct (X1 tau Ht) as (ddq' & F1 & F2). pose proof (FD _ _ F1 F2) as Hd'.
    destruct (two_defaults ddq' A C Hd' HA HC) as (N' & t2 & t3 & H2 & H3 & _ & _ & HN'). rewrite F2 in H3. inversion H3; subst t3.
    exists tau, ddq'. split; [exact H1|]. split; [exact F1|]. intros i Hi.
    (* the two N agree *)
    destruct (c14 solve pinv h ab ddq fe id_default R B P Hd) as (A1 & C1 & G1 & E1 & u & HA1 & HC1 & HG1 & HE1 & HT & HF & _).
    destruct (c14 solve pinv h ab ddq' fe fd_default R B P Hd') as (A2 & C2 & G2 & E2 & u' & HA2 & HC2 & HG2 & HE2 & HT' & HF' & _).
    rewrite HA in HA1, HA2. rewrite HC in HC1, HC2. rewrite HG1 in HG2. rewrite HE1 in HE2. rewrite H1 in HT. rewrite F2 in HT'.
    inversion HA1; inversion HA2; inversion HC1; inversion HC2; inversion HG2; inversion HE2; inversion HT; inversion HT'; subst.
    specialize (HF eq_refl). specialize (HF' eq_refl). rewrite HF in HF'. apply (f_equal (fun l => coef l i)) in HF'. rewrite !coef_vec in HF' by auto.
    cbn [o_cc o_grav id_default fd_default] in HF'. unfold row_times. unfold over_links in HF'.
    match type of HF' with ?a + 0 + ?g + ?e = ?b + ?c + ?g + ?e => transitivity (a + 0 + g + e - g - e); [ring|]; rewrite HF'; ring end.
  - intros tau Ht. destruct (X1 tau Ht) as (ddq & F1 & F2). pose proof (FD _ _ F1 F2) as Hd.
    destruct (two_defaults ddq A C Hd HA HC) as (N & t2 & t3 & H2 & H3 & _ & _ & HN). rewrite F2 in H3. inversion H3; subst t3.
    exists ddq, t2. split; [exact F1|]. split; [exact H2|]. intros i Hi. apply (HN i Hi).
Qed.
(** At rest the defaults agree. *)
Lemma c56_rest : (forall i, (i < ab_dof ab)%nat -> coef (ab_dq ab) i = 0) ->
  exists A, outcome (ask solve pinv QInertia ab) = Ok (AMat A) /\
  (solver_ok solve (ab_dof ab) A -> injective (ab_dof ab) A -> forall ddq, List.length ddq = ab_dof ab -> exists tau,
      outcome (ask solve pinv (QID ddq fe id_default) ab) = Ok (AVec tau) /\
      outcome (ask solve pinv (QFD tau fe fd_default) ab) = Ok (AVec ddq)).
Proof.
  intros Z. destruct answers as (A & C & HA & HC). exists A. split; [exact HA|]. intros SO IJ ddq Hd.
  assert (AC : AddComm S) by apply laws_comm. destruct (reached_wfc solve pinv h ab R B) as [T W].
  destruct (two_defaults ddq A C Hd HA HC) as (N & tau & tau' & H1 & H2 & Ht & Ht' & HN).
  assert (tau' = tau).
  { apply (coef_eq (ab_dof ab)); auto. intros i Hi. destruct (HN i Hi) as [_ ->].
    cbn [ask] in HC. rewrite outcome_wrap, (out_CC ab T W) in HC. cbn in HC. inversion HC; subst C. rewrite coef_vec by auto.
    rewrite (Cv_still ab i T (pr_rigid _ P) Z Hi). ring. }
  subst tau'. destruct (c17 solve pinv h ab fe fd_default R B P eq_refl) as (A' & HA' & X). rewrite HA in HA'. inversion HA'; subst A'.
  destruct (X SO) as [_ X2]. destruct (X2 IJ ddq Hd) as (t & F1 & F2). rewrite H2 in F1. inversion F1; subst t. exists tau. auto.
Qed.
(** With the options converted, they are inverse. *)
Lemma c56_converted o : o_fric o = false ->
  exists A, outcome (ask solve pinv QInertia ab) = Ok (AMat A) /\
  (solver_ok solve (ab_dof ab) A -> injective (ab_dof ab) A -> forall ddq, List.length ddq = ab_dof ab -> exists tau,
      outcome (ask solve pinv (QID ddq fe (id_of_fd o)) ab) = Ok (AVec tau) /\
      outcome (ask solve pinv (QFD tau fe o) ab) = Ok (AVec ddq)).
Proof.
  intros F. destruct (c17 solve pinv h ab fe o R B P F) as (A & HA & X). exists A. split; [exact HA|]. intros SO IJ.
  destruct (X SO) as [_ X2]. destruct o. exact (X2 IJ).
Qed.
End OptionProofs.
