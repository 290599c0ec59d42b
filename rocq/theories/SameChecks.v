(** A decision procedure for [same_machine], to show examples. *)
From Coq Require Import List Arith ZArith Bool Lia.
From Verif Require Import Scalar Base Spatial SpecGeo Joint Body Kin InvDyn Specs SpecDyn SpecSame Checks.
Import ListNotations.
Section SameChecks.
Context {S : Scal} {ES : EqSound S}.
Local Open Scope k_scope.
Definition isob (a b : iso) : bool := m3eqb (rot a) (rot b) && v3eqb (tra a) (tra b).
Definition inertiab (a b : inertia) : bool := keq (imass a) (imass b) && v3eqb (icom a) (icom b) && m3eqb (iI a) (iI b).
Definition motb (a b : motion) : bool := v3eqb (mlin a) (mlin b) && v3eqb (mang a) (mang b).
Definition boundb (a b : bound) : bool := match a, b with NInf, NInf => true | PInf, PInf => true | Fin x, Fin y => keq x y | _, _ => false end.
Definition jointb (a b : joint) : bool :=
  jtype_eqb (jtyp a) (jtyp b) && motb (jsub a) (jsub b) && boundb (jqmin a) (jqmin b) && boundb (jqmax a) (jqmax b) && boundb (jdqmax a) (jdqmax b) && boundb (jfqmax a) (jfqmax b)
  && keq (jcoulomb a) (jcoulomb b) && keq (jviscous a) (jviscous b) && keq (jstiction a) (jstiction b).
Definition loadb (a b : option inertia) : bool := match a, b with None, None => true | Some x, Some y => inertiab x y | _, _ => false end.
Ltac ands H := repeat (apply andb_true_iff in H; let H' := fresh H in destruct H as [H H']; try ands H').
Lemma isob_ok a b : isob a b = true -> a = b.
Proof. destruct a, b. unfold isob. cbn. intros H. apply andb_true_iff in H. destruct H as [H1 H2]. apply m3eqb_ok in H1. apply v3eqb_ok in H2. subst; auto. Qed.
Lemma inertiab_ok a b : inertiab a b = true -> a = b.
Proof.
  destruct a, b. unfold inertiab. cbn. intros H. apply andb_true_iff in H. destruct H as [H H2]. apply andb_true_iff in H. destruct H as [H H1].
  apply m3eqb_ok in H2. apply v3eqb_ok in H1. apply keq_sound in H. subst; auto.
Qed.
Lemma motb_ok a b : motb a b = true -> a = b.
Proof. destruct a, b. unfold motb. cbn. intros H. apply andb_true_iff in H. destruct H as [H1 H2]. apply v3eqb_ok in H1, H2. subst; auto. Qed.
Lemma boundb_ok a b : boundb a b = true -> a = b.
Proof. destruct a, b; cbn; try discriminate; auto. intros H. apply keq_sound in H. subst; auto. Qed.
Lemma jtype_eqb_ok a b : jtype_eqb a b = true -> a = b.
Proof. destruct a, b; cbn; congruence. Qed.
Lemma jointb_ok a b : jointb a b = true -> a = b.
Proof.
  destruct a, b. unfold jointb. cbn. intros H. repeat (apply andb_true_iff in H; let H' := fresh in destruct H as [H H']).
  repeat match goal with
  | E : motb _ _ = true |- _ => apply motb_ok in E
  | E : boundb _ _ = true |- _ => apply boundb_ok in E
  | E : keq _ _ = true |- _ => apply keq_sound in E
  | E : jtype_eqb _ _ = true |- _ => apply jtype_eqb_ok in E
  end. subst. auto.
Qed.
Lemma loadb_ok a b : loadb a b = true -> a = b.
Proof. destruct a, b; cbn; try discriminate; auto. intros H. apply inertiab_ok in H. subst; auto. Qed.
Definition sameb (s : nat -> nat) (X : iso) (c w : K) (a b : body) : bool :=
  let n := ab_dof a in let at_ (x : body) k := nth k (ab_rbs x) rb_default in
  Nat.eqb (ab_dof b) n &&
  forallb (fun k => Nat.ltb (s k) n) (seq 0 n) &&
  forallb (fun j => forallb (fun k => negb (Nat.eqb (s j) (s k)) || Nat.eqb j k) (seq 0 n)) (seq 0 n) &&
  forallb (fun k => isob (rb_T (at_ b (s k))) (rb_T (at_ a k))) (seq 0 n) &&
  forallb (fun k => jointb (rb_joint (at_ b (s k))) (rb_joint (at_ a k))) (seq 0 n) &&
  forallb (fun k => Z.eqb (rb_parent (at_ b (s k))) (if (rb_parent (at_ a k) <? 0)%Z then rb_parent (at_ a k) else Z.of_nat (s (Z.to_nat (rb_parent (at_ a k)))))) (seq 0 n) &&
  forallb (fun k => inertiab (rb_inertia (at_ b (s k))) (times c (rb_inertia (at_ a k)))) (seq 0 n) &&
  forallb (fun k => loadb (ab_loads b (Z.of_nat (s k))) (option_map (times c) (ab_loads a (Z.of_nat k)))) (seq 0 n) &&
  forallb (fun k => keq (coef (ab_q b) (s k)) (coef (ab_q a) k)) (seq 0 n) &&
  forallb (fun k => keq (coef (ab_dq b) (s k)) (w * coef (ab_dq a) k)) (seq 0 n) &&
  v3eqb (mlin (ab_g b)) (v3scale (w * w) (m3mulv (rot X) (mlin (ab_g a)))) &&
  isob (ab_Tbase b) (iso_mul X (ab_Tbase a)).
Lemma all_below n (p : nat -> bool) : forallb p (seq 0 n) = true -> forall k, (k < n)%nat -> p k = true.
Proof. intros H k Hk. rewrite forallb_forall in H. apply H, in_seq. lia. Qed.
Lemma sameb_ok s X c w a b : sameb s X c w a b = true -> same_machine s X c w a b.
Proof.
  unfold sameb. cbv zeta. intros H. repeat (apply andb_true_iff in H; let H' := fresh "A" in destruct H as [H H']).
  constructor.
  - apply Nat.eqb_eq; auto.
  - intros k Hk. apply Nat.ltb_lt. exact (all_below _ _ A9 k Hk).
  - intros j k Hj Hk E. pose proof (all_below _ _ (all_below _ _ A8 j Hj) k Hk) as B. cbv beta in B. rewrite E, Nat.eqb_refl in B. cbn in B. apply Nat.eqb_eq; auto.
  - intros k Hk. apply isob_ok. exact (all_below _ _ A7 k Hk).
  - intros k Hk. apply jointb_ok. exact (all_below _ _ A6 k Hk).
  - intros k Hk. apply Z.eqb_eq. exact (all_below _ _ A5 k Hk).
  - intros k Hk. apply inertiab_ok. exact (all_below _ _ A4 k Hk).
  - intros k Hk. apply loadb_ok. exact (all_below _ _ A3 k Hk).
  - intros k Hk. apply keq_sound. exact (all_below _ _ A2 k Hk).
  - intros k Hk. apply keq_sound. exact (all_below _ _ A1 k Hk).
  - apply v3eqb_ok; auto.
  - apply isob_ok; auto.
Qed.
Definition forceb (a b : option force) : bool := match a, b with None, None => true | Some x, Some y => v3eqb (flin x) (flin y) && v3eqb (fang x) (fang y) | _, _ => false end.
Lemma forceb_ok a b : forceb a b = true -> a = b.
Proof. destruct a as [[? ?]|], b as [[? ?]|]; cbn; try discriminate; auto. intros H. apply andb_true_iff in H. destruct H as [H1 H2]. apply v3eqb_ok in H1, H2. subst; auto. Qed.
Lemma carried_forcesb_ok s X z n (fe fe' : fmap) :
  forallb (fun k => forceb (fe' (s k)) (option_map (fun f => fscale z (fact X f)) (fe k))) (seq 0 n) = true -> carried_forces s X z n fe fe'.
Proof. intros H k Hk. apply forceb_ok. exact (all_below _ _ H k Hk). Qed.
Lemma carriedb_ok s z n (x y : list K) :
  Nat.eqb (List.length x) n && Nat.eqb (List.length y) n && forallb (fun k => keq (coef y (s k)) (z * coef x k)) (seq 0 n) = true -> carried s z n x y.
Proof.
  intros H. apply andb_true_iff in H. destruct H as [H H2]. apply andb_true_iff in H. destruct H as [H H1].
  split; [apply Nat.eqb_eq; auto|]. split; [apply Nat.eqb_eq; auto|]. intros k Hk. apply keq_sound. exact (all_below _ _ H2 k Hk).
Qed.
End SameChecks.
