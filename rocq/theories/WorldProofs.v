(** The recursive algorithms in world coordinates: sums over ancestors and
    subtrees. *)
From Coq Require Import List Arith ZArith Bool Lia Ring Field.
From Verif Require Import Scalar Base Spatial SpecGeo Joint Body Kin InvDyn FwdDyn Ops Specs SpecCache SpecKin SpatialProofs TreeProofs CacheProofs CacheOps JointProofs BigSum KinProofs.
Import ListNotations.

Section World.
Context {S : Scal} {L : ScalLaws S}.
Add Field kf : (@kfield S L).
Local Open Scope k_scope.
Variable ab : body.
Hypothesis T : tree_ok ab.
Hypothesis R : rigid_robot ab.
Let n := ab_dof ab.

(** [i] is [k] or one of its ancestors. *)
Definition ancb (i k : nat) : bool := existsb (Nat.eqb i) (anc_at ab k).
Lemma ancb_in i k : ancb i k = true <-> In i (anc_at ab k).
Proof.
  unfold ancb. rewrite existsb_exists. split.
  - intros (x & Hx & E). apply Nat.eqb_eq in E. subst; auto.
  - intros H. exists i. split; auto. apply Nat.eqb_refl.
Qed.
Lemma ancb_self k : (k < n)%nat -> ancb k k = true.
Proof. intros H. apply ancb_in, tree_in_anc_self; auto. Qed.
Lemma ancb_le i k : (k < n)%nat -> ancb i k = true -> (i <= k)%nat.
Proof. intros Hk H. apply ancb_in in H. eapply tree_in_anc_le; eauto. Qed.
Lemma ancb_gt i k : (k < n)%nat -> (k < i)%nat -> ancb i k = false.
Proof. intros Hk H. destruct (ancb i k) eqn:E; auto. apply ancb_le in E; auto; lia. Qed.
Lemma ancb_step i k : (k < n)%nat -> ancb i k = match par ab k with None => Nat.eqb i k | Some p => Nat.eqb i k || ancb i p end.
Proof.
  intros Hk. unfold ancb. rewrite (tk_anc_at _ T k Hk). destruct (par ab k) as [p|]; cbn.
  - rewrite existsb_app. cbn. rewrite orb_false_r. apply orb_comm.
  - rewrite orb_false_r. auto.
Qed.
Lemma ancb_trans i j k : (k < n)%nat -> ancb i j = true -> ancb j k = true -> ancb i k = true.
Proof.
  induction k as [k IH] using lt_wf_ind. intros Hk H1 H2. rewrite ancb_step in H2 by auto.
  destruct (par ab k) as [p|] eqn:E.
  - apply orb_true_iff in H2. destruct H2 as [H2|H2]; [apply Nat.eqb_eq in H2; subst; auto|].
    pose proof (tree_par _ _ _ T Hk E). rewrite ancb_step, E by auto. rewrite IH by (auto; lia). apply orb_true_r.
  - apply Nat.eqb_eq in H2. subst; auto.
Qed.
(** Ancestors of a common link are comparable. *)
Lemma ancb_total i j k : (k < n)%nat -> ancb i k = true -> ancb j k = true -> ancb i j = true \/ ancb j i = true.
Proof.
  induction k as [k IH] using lt_wf_ind. intros Hk H1 H2.
  pose proof (ancb_step i k Hk) as E1. pose proof (ancb_step j k Hk) as E2.
  destruct (par ab k) as [p|] eqn:E.
  - pose proof (tree_par _ _ _ T Hk E). rewrite E1 in H1. rewrite E2 in H2.
    apply orb_true_iff in H1. apply orb_true_iff in H2.
    destruct H1 as [H1|H1]; [apply Nat.eqb_eq in H1; subst; right; rewrite E2; apply orb_true_iff; tauto|].
    destruct H2 as [H2|H2]; [apply Nat.eqb_eq in H2; subst; left; rewrite E1; apply orb_true_iff; tauto|].
    apply (IH p); auto; lia.
  - rewrite E1 in H1. rewrite E2 in H2. apply Nat.eqb_eq in H1, H2. subst. left. apply ancb_self; auto.
Qed.

(** ** Trees and sums *)
Section Mon.
Context {A : Type} (add : A -> A -> A) (zero : A).
Hypothesis addC : forall a b, add a b = add b a.
Hypothesis addA : forall a b c, add a (add b c) = add (add a b) c.
Hypothesis add0 : forall a, add zero a = a.
Local Notation sum := (bsum add zero).
Definition isparb (c i : nat) : bool := match par ab c with Some p => Nat.eqb p i | None => false end.
Lemma child_count i k x : (k < n)%nat ->
  add (if Nat.eqb k i then x else zero) (sum n (fun c => if isparb c i && ancb c k then x else zero)) =
  if ancb i k then x else zero.
Proof.
  induction k as [k IH] using lt_wf_ind. intros Hk. rewrite (ancb_step i k) by auto. unfold isparb at 1.
  destruct (par ab k) as [p|] eqn:E.
  - pose proof (tree_par _ _ _ T Hk E) as Hp.
    assert (X : sum n (fun c => if match par ab c with Some p0 => Nat.eqb p0 i | None => false end && ancb c k then x else zero) =
                add (if Nat.eqb p i then x else zero) (sum n (fun c => if isparb c i && ancb c p then x else zero))).
    { rewrite (addC (if Nat.eqb p i then x else zero)).
      transitivity (add (sum n (fun c => if isparb c i && ancb c p then x else zero)) (sum n (fun c => if Nat.eqb c k then (if isparb c i then x else zero) else zero))).
      - rewrite <- bsum_add by auto. apply bsum_ext. intros c Hc. fold (isparb c i). rewrite (ancb_step c k), E by auto.
        destruct (Nat.eqb_spec c k); [subst; rewrite (ancb_gt k p) by lia|]; cbn.
        + rewrite andb_false_r, add0, andb_true_r. auto.
        + rewrite (add0r add zero addC add0). auto.
      - f_equal. rewrite (bsum_single add zero addC add0) by auto. unfold isparb. rewrite E. auto. }
    rewrite X. rewrite IH by (auto; lia). rewrite Nat.eqb_sym. destruct (Nat.eqb_spec i k) as [->|]; cbn; auto.
    rewrite (ancb_gt k p) by lia. apply (add0r add zero addC add0).
  - rewrite bsum_zero; [rewrite (add0r add zero addC add0), Nat.eqb_sym; auto|auto|].
    intros c Hc. rewrite (ancb_step c k), E by auto. destruct (Nat.eqb_spec c k); [subst; rewrite E; auto|].
    rewrite andb_false_r. auto.
Qed.
(** A quantity accumulated from the children is the sum over the subtree. *)
Lemma subtree_sum (X x : nat -> A) :
  (forall i, (i < n)%nat -> X i = add (x i) (sum n (fun c => if isparb c i then X c else zero))) ->
  forall i, (i < n)%nat -> X i = sum n (fun k => if ancb i k then x k else zero).
Proof.
  intros H. assert (D : forall d i, (n - i <= d)%nat -> (i < n)%nat -> X i = sum n (fun k => if ancb i k then x k else zero)).
  { induction d as [|d IH]; [lia|]. intros i Hd Hi. rewrite H by auto.
    transitivity (add (sum n (fun k => if Nat.eqb k i then x k else zero))
                      (sum n (fun c => sum n (fun k => if isparb c i && ancb c k then x k else zero)))).
    - f_equal; [symmetry; apply bsum_single; auto|]. apply bsum_ext. intros c Hc. unfold isparb.
      destruct (par ab c) as [p|] eqn:E; [|symmetry; apply bsum_zero; auto].
      destruct (Nat.eqb_spec p i); [|symmetry; apply bsum_zero; auto]. subst.
      pose proof (tree_par _ _ _ T Hc E). cbn. apply IH; lia.
    - rewrite bsum_swap, <- bsum_add by auto. apply bsum_ext. intros k Hk. apply child_count; auto. }
  intros i. apply (D n). lia.
Qed.
(** A quantity passed on from the parent is the sum over the ancestors. *)
Lemma path_sum (X x : nat -> A) :
  (forall i, (i < n)%nat -> X i = match par ab i with None => x i | Some p => add (x i) (X p) end) ->
  forall i, (i < n)%nat -> X i = sum n (fun j => if ancb j i then x j else zero).
Proof.
  intros H. induction i as [i IH] using lt_wf_ind. intros Hi. rewrite H by auto.
  destruct (par ab i) as [p|] eqn:E.
  - pose proof (tree_par _ _ _ T Hi E). rewrite (IH p) by lia.
    transitivity (sum n (fun j => if Nat.eqb j i || ancb j p then x j else zero)).
    + rewrite (bsum_split add zero addC addA add0 n i x (fun j => ancb j p)); auto. apply ancb_gt; auto; lia.
    + apply bsum_ext. intros j Hj. rewrite (ancb_step j i), E by auto. auto.
  - rewrite (bsum_ext _ _ n _ (fun j => if Nat.eqb j i then x j else zero)); [symmetry; apply bsum_single; auto|].
    intros j Hj. rewrite (ancb_step j i), E by auto. auto.
Qed.
End Mon.

(** ** World-frame quantities *)
Definition Sw (i : nat) : motion := mact (twv ab i) (sub_at ab i).
Definition Iw (k : nat) : inertia := iact (twv ab k) (inertia_at ab k).
Lemma tw_rigid i : (i < n)%nat -> rigid (twv ab i). Proof. intros; apply twv_rigid; auto. Qed.
Lemma tp_rigid i : (i < n)%nat -> rigid (tpv ab i). Proof. intros; apply tpv_rigid; auto. Qed.
Hint Resolve tw_rigid tp_rigid : core.
Lemma tw_child c p m : (c < n)%nat -> par ab c = Some p -> fact (twv ab p) (fact (tpv ab c) m) = fact (twv ab c) m.
Proof.
  intros Hc E. pose proof (tree_par _ _ _ T Hc E). rewrite (twv_eq ab c), E by auto. rewrite fact_mul by (apply tw_rigid; lia). auto.
Qed.
Lemma tw_parent c p m : (c < n)%nat -> par ab c = Some p -> mact (twv ab c) (mact (iso_inv (tpv ab c)) m) = mact (twv ab p) m.
Proof.
  intros Hc E. pose proof (tree_par _ _ _ T Hc E). rewrite (twv_eq ab c), E by auto. rewrite mact_mul by (apply tw_rigid; lia).
  rewrite mact_inv_r by auto. auto.
Qed.

(** ** Backward pass *)
Definition backF (f0 : arr force) : arr force := snd (for_down n (back_step ab (tpv ab)) (fun _ => 0, f0)).
Lemma back_split (P : nat -> bool) (g : nat -> force) j : (j < n)%nat ->
  fsum n (fun c => if Nat.leb j c && P c then g c else fzero) =
  fadd (fsum n (fun c => if Nat.leb (Datatypes.S j) c && P c then g c else fzero)) (if P j then g j else fzero).
Proof.
  intros Hj. rewrite <- (bsum_single fadd fzero fadd_comm fadd_zero_l n j (fun j => if P j then g j else fzero)) by auto.
  fold fsum. rewrite <- fsum_add. apply fsum_ext. intros c Hc.
  destruct (Nat.eqb_spec c j).
  - subst. rewrite Nat.leb_refl. replace (Nat.leb (Datatypes.S j) j) with false by (symmetry; apply Nat.leb_gt; lia).
    cbn. rewrite fadd_zero_l. auto.
  - rewrite fadd_zero_r. replace (Nat.leb j c) with (Nat.leb (Datatypes.S j) c); auto.
    destruct (Nat.leb_spec (Datatypes.S j) c), (Nat.leb_spec j c); auto; lia.
Qed.
Lemma back_spec f0 : (forall i, (i < n)%nat ->
    backF f0 i = fadd (f0 i) (fsum n (fun c => if isparb c i then fact (tpv ab c) (backF f0 c) else fzero))) /\
  (forall i, (i < n)%nat -> back ab f0 i = mdot (sub_at ab i) (backF f0 i)).
Proof.
  unfold back, backF. fold n.
  pose proof (for_down_ind (fun m (st : arr K * arr force) => let '(out, f) := st in
    (forall i, (i < n)%nat -> f i = fadd (f0 i) (fsum n (fun c => if Nat.leb m c && isparb c i then fact (tpv ab c) (f c) else fzero))) /\
    (forall i, (m <= i < n)%nat -> out i = mdot (sub_at ab i) (f i)))
    n (back_step ab (tpv ab)) (fun _ => 0, f0)) as X.
  destruct (for_down n (back_step ab (tpv ab)) (fun _ => 0, f0)) as [out f]. cbn [fst snd]. cbn beta iota in X.
  destruct X as [X1 X2].
  - split; [|lia]. intros i Hi. rewrite <- (fadd_zero_r (f0 i)) at 1. f_equal. symmetry. apply bsum_zero; [apply fadd_zero_l|].
    intros c Hc. replace (Nat.leb n c) with false by (symmetry; apply Nat.leb_gt; lia). auto.
  - intros j [out1 f1] Hj [Y1 Y2]. unfold back_step. destruct (par ab j) as [p|] eqn:E.
    + pose proof (tree_par _ _ _ T Hj E) as Hp.
      assert (Z : forall c, (j <= c)%nat -> upd f1 p (fadd (f1 p) (fact (tpv ab j) (f1 j))) c = f1 c) by (intros; apply upd_other; lia).
      split.
      * intros i Hi. rewrite (back_split (fun c => isparb c i)) by auto.
        rewrite (fsum_ext n _ (fun c => if Nat.leb (Datatypes.S j) c && isparb c i then fact (tpv ab c) (f1 c) else fzero)).
        2:{ intros c Hc. destruct (Nat.leb_spec (Datatypes.S j) c); cbn [andb]; auto. rewrite Z by lia. auto. }
        rewrite (Z j) by lia. unfold isparb at 2. rewrite E. rewrite fadd_assoc, <- Y1 by auto.
        unfold upd. rewrite (Nat.eqb_sym i p). destruct (Nat.eqb_spec p i); [subst; auto|]. symmetry. apply fadd_zero_r.
      * intros i Hi. rewrite Z by lia. unfold upd. destruct (Nat.eqb_spec i j); [subst; auto|]. apply Y2. lia.
    + split.
      * intros i Hi. rewrite (back_split (fun c => isparb c i)) by auto. unfold isparb at 2. rewrite E.
        rewrite fadd_zero_r. auto.
      * intros i Hi. unfold upd. destruct (Nat.eqb_spec i j); [subst; auto|]. apply Y2. lia.
  - split; auto. intros i Hi. apply X2. lia.
Qed.
Lemma backF_world f0 i : (i < n)%nat ->
  fact (twv ab i) (backF f0 i) = fsum n (fun k => if ancb i k then fact (twv ab k) (f0 k) else fzero).
Proof.
  intros Hi. revert i Hi. apply (subtree_sum fadd fzero fadd_comm fadd_assoc fadd_zero_l).
  intros i Hi. destruct (back_spec f0) as [X _]. rewrite (X i Hi) at 1. rewrite fact_add. f_equal.
  fold fsum. rewrite fact_fsum. apply fsum_ext. intros c Hc. unfold isparb. destruct (par ab c) as [p|] eqn:E; [|apply fact_zero].
  destruct (Nat.eqb_spec p i); [|apply fact_zero]. subst. apply tw_child; auto.
Qed.
Lemma back_world f0 i : (i < n)%nat ->
  back ab f0 i = ksum n (fun k => if ancb i k then mdot (Sw i) (fact (twv ab k) (f0 k)) else 0).
Proof.
  intros Hi. destruct (back_spec f0) as [_ X]. rewrite X by auto. rewrite <- (mdot_act (twv ab i)) by auto.
  rewrite backF_world, mdot_fsum by auto. apply ksum_ext. intros k Hk. apply mdot_if.
Qed.

(** ** Forward pass *)
Lemma vel_world i : (i < n)%nat ->
  mact (twv ab i) (velv ab i) = msum n (fun j => if ancb j i then mscale (qk (ab_dq ab) j) (Sw j) else mzero).
Proof.
  intros Hi. revert i Hi. apply (path_sum madd mzero madd_comm madd_assoc madd_zero_l).
  intros i Hi. unfold velv at 1. rewrite tval_eq by auto. destruct (par ab i) as [p|] eqn:E.
  - rewrite mact_add, mact_scale. f_equal. apply tw_parent; auto.
  - apply mact_scale.
Qed.

(** ** Composite rigid bodies *)
Section Crba.
Context {PL : PosLaws S}.
Hypothesis mass_pos : forall i, (i < n)%nat -> klt 0 (imass (inertia_at ab i)) = true.

Lemma crba_Ic_spec : forall i, (i < n)%nat -> klt 0 (imass (Icv ab i)) = true /\
  forall x, imul (Icv ab i) x = fadd (imul (inertia_at ab i) x)
    (fsum n (fun c => if isparb c i then fact (tpv ab c) (imul (Icv ab c) (mact (iso_inv (tpv ab c)) x)) else fzero)).
Proof.
  unfold Icv, crbav. fold n.
  pose proof (for_down_ind (fun m (st : arr inertia * arr2 K) => let '(Ic, A) := st in
    forall i, (i < n)%nat -> klt 0 (imass (Ic i)) = true /\
     forall x, imul (Ic i) x = fadd (imul (inertia_at ab i) x)
      (fsum n (fun c => if Nat.leb m c && isparb c i then fact (tpv ab c) (imul (Ic c) (mact (iso_inv (tpv ab c)) x)) else fzero)))
    n (crba_step ab (tpv ab)) (inertia_at ab, fun _ _ => 0)) as X.
  destruct (for_down n (crba_step ab (tpv ab)) (inertia_at ab, fun _ _ => 0)) as [Ic A]. cbn [fst]. cbn beta iota in X.
  apply X.
  - intros i Hi. split; auto. intros x. rewrite <- (fadd_zero_r (imul (inertia_at ab i) x)) at 1. f_equal. symmetry.
    apply bsum_zero; [apply fadd_zero_l|]. intros c Hc. replace (Nat.leb n c) with false by (symmetry; apply Nat.leb_gt; lia). auto.
  - clear X. intros j [I1 A1] Hj Y. unfold crba_step.
    match goal with |- context [fold_left ?f ?l ?s] => destruct (fold_left f l s) as [[a b] A2] end.
    destruct (par ab j) as [p|] eqn:E.
    + pose proof (tree_par _ _ _ T Hj E) as Hp.
      assert (Z : forall c, (j <= c)%nat -> upd I1 p (iadd (I1 p) (iact (tpv ab j) (I1 j))) c = I1 c) by (intros; apply upd_other; lia).
      intros i Hi. split.
      * unfold upd. destruct (Nat.eqb_spec i p); [|apply Y; auto]. cbn. apply kpos_add; apply Y; lia.
      * intros x. rewrite (back_split (fun c => isparb c i)) by auto.
        rewrite (fsum_ext n _ (fun c => if Nat.leb (Datatypes.S j) c && isparb c i then fact (tpv ab c) (imul (I1 c) (mact (iso_inv (tpv ab c)) x)) else fzero)).
        2:{ intros c Hc. destruct (Nat.leb_spec (Datatypes.S j) c); cbn [andb]; auto. rewrite Z by lia. auto. }
        rewrite (Z j) by lia. unfold isparb at 2. rewrite E. rewrite fadd_assoc. rewrite <- (proj2 (Y i Hi)).
        unfold upd. rewrite (Nat.eqb_sym i p). destruct (Nat.eqb_spec p i).
        { subst. rewrite iadd_mul.
          - f_equal. apply imul_act'. auto.
          - apply kpos_neq. cbn. apply kpos_add; apply Y; lia. }
        { symmetry. apply fadd_zero_r. }
    + intros i Hi. split; [apply Y; auto|]. intros x. rewrite (back_split (fun c => isparb c i)) by auto.
      unfold isparb at 2. rewrite E. rewrite fadd_zero_r. apply Y; auto.
Qed.
Lemma Ic_world i x : (i < n)%nat -> imul (iact (twv ab i) (Icv ab i)) x = fsum n (fun k => if ancb i k then imul (Iw k) x else fzero).
Proof.
  intros Hi. revert i Hi. apply (subtree_sum fadd fzero fadd_comm fadd_assoc fadd_zero_l (fun i => imul (iact (twv ab i) (Icv ab i)) x) (fun k => imul (Iw k) x)).
  intros i Hi. unfold Iw. rewrite !imul_act' by auto. rewrite (proj2 (crba_Ic_spec i Hi)) at 1. rewrite fact_add. f_equal.
  fold fsum. rewrite fact_fsum. apply fsum_ext. intros c Hc. unfold isparb. destruct (par ab c) as [p|] eqn:E; [|apply fact_zero].
  destruct (Nat.eqb_spec p i); [|apply fact_zero]. subst. rewrite imul_act' by auto.
  rewrite (tw_child c i) by auto. do 2 f_equal.
  rewrite <- (mact_inv_l (twv ab c) (mact (iso_inv (tpv ab c)) (mact (iso_inv (twv ab i)) x))) by auto.
  rewrite (tw_parent c i), mact_inv_r by auto. auto.
Qed.

(** Entries written so far. *)
Definition Aspec (i j : nat) : K :=
  if ancb j i then mdot (Sw j) (imul (iact (twv ab i) (Icv ab i)) (Sw i))
  else if ancb i j then mdot (Sw i) (imul (iact (twv ab j) (Icv ab j)) (Sw j)) else 0.

Lemma crba_inner i F : forall c f A, (c < n)%nat -> (c <= i)%nat -> fact (twv ab c) f = F ->
  let A' := snd (fold_left (crba_up ab (tpv ab) i) (tl (up_chain ab c)) (c, f, A)) in
  forall a b, A' a b = if Nat.eqb a i && (ancb b c && negb (Nat.eqb b c)) then mdot (Sw b) F
                       else if Nat.eqb b i && (ancb a c && negb (Nat.eqb a c)) then mdot (Sw a) F else A a b.
Proof.
  induction c as [c IH] using lt_wf_ind. intros f A Hc Hci HF. cbn zeta.
  assert (EQ : forall b, ancb b c && negb (Nat.eqb b c) = match par ab c with None => false | Some p => ancb b p end).
  { intros b. rewrite (ancb_step b c) by auto. destruct (par ab c) as [p|] eqn:E; [|destruct (Nat.eqb b c); auto].
    pose proof (tree_par _ _ _ T Hc E). destruct (Nat.eqb_spec b c); cbn; [|apply andb_true_r].
    subst. symmetry. apply ancb_gt; lia. }
  intros a b. rewrite !EQ. unfold up_chain. cbn [chain tl]. 
  destruct (par ab c) as [p|] eqn:E; [|destruct c; cbn; rewrite ?andb_false_r; auto].
  pose proof (tree_par _ _ _ T Hc E) as Hp.
  assert (Ech : chain ab c (Some p) = up_chain ab p) by (rewrite chain_anc, <- up_chain_anc by (auto; lia); auto).
  rewrite Ech. unfold up_chain. cbn [chain fold_left]. unfold crba_up at 2.
  change (chain ab p (par ab p)) with (tl (up_chain ab p)).
  assert (HF' : fact (twv ab p) (fact (tpv ab c) f) = F) by (rewrite tw_child; auto).
  rewrite (IH p) by (auto; lia). clear IH.
  assert (D : mdot (sub_at ab p) (fact (tpv ab c) f) = mdot (Sw p) F).
  { unfold Sw. rewrite <- HF', mdot_act; auto. apply tw_rigid; lia. }
  unfold upd2. rewrite D.
  assert (SP : ancb p p = true) by (apply ancb_self; lia).
  assert (NI : Nat.eqb i p = false) by (apply Nat.eqb_neq; lia).
  assert (NA : ancb i p = false) by (apply ancb_gt; lia).
  destruct (Nat.eqb_spec a i), (Nat.eqb_spec b i); subst; rewrite ?NI, ?NA; cbn [andb orb negb]; auto.
  - destruct (Nat.eqb_spec b p); subst; rewrite ?SP; cbn [andb orb negb]; rewrite ?andb_true_r, ?andb_false_r; auto.
  - destruct (Nat.eqb_spec a p); subst; rewrite ?SP; cbn [andb orb negb]; rewrite ?andb_true_r, ?andb_false_r; auto.
  - rewrite andb_false_r. auto.
Qed.

Lemma Av_spec i j : (i < n)%nat -> (j < n)%nat -> Av ab i j = Aspec i j.
Proof.
  intros Hi Hj. revert i j Hi Hj.
  (* final inertias are those at the time the link is processed *)
  assert (FIN : forall m st, (m <= n)%nat -> forall i, (m <= i)%nat -> (i < n)%nat -> fst (for_down m (crba_step ab (tpv ab)) st) i = fst st i).
  { induction m as [|m IH]; intros [I1 A1] Hm i Hi Hin; cbn [for_down]; auto. rewrite IH by lia. unfold crba_step.
    match goal with |- context [fold_left ?f ?l ?s] => destruct (fold_left f l s) as [[a b] A2] end. cbn [fst].
    destruct (par ab m) as [p|] eqn:E; auto. pose proof (tree_par ab m p T ltac:(unfold n in *; lia) E). apply upd_other. lia. }
  assert (X : forall m st, (m <= n)%nat -> (forall i, (i < n)%nat -> fst (for_down m (crba_step ab (tpv ab)) st) i = Icv ab i) ->
     (forall i j, (i < n)%nat -> (j < n)%nat -> snd st i j = if Nat.leb m (Nat.max i j) then Aspec i j else 0) ->
     forall i j, (i < n)%nat -> (j < n)%nat -> snd (for_down m (crba_step ab (tpv ab)) st) i j = Aspec i j).
  { induction m as [|m IH]; intros [I1 A1] Hm HI HA a b Ha Hb; cbn [for_down]; [cbn in *; rewrite HA by auto; auto|].
    apply IH; auto; [lia|]. clear a b Ha Hb. intros a b Ha Hb. cbn [snd] in HA.
    assert (IC : I1 m = Icv ab m).
    { rewrite <- HI by lia. cbn [for_down]. rewrite FIN by lia. unfold crba_step.
      match goal with |- context [fold_left ?f ?l ?s] => destruct (fold_left f l s) as [[? ?] A2] end. cbn [fst].
      destruct (par ab m) as [p|] eqn:E; auto. pose proof (tree_par ab m p T ltac:(unfold n in *; lia) E). rewrite upd_other; auto. lia. }
    unfold crba_step.
    set (I2 := match par ab m with None => I1 | Some p => upd I1 p (iadd (I1 p) (iact (tpv ab m) (I1 m))) end).
    assert (I2m : I2 m = Icv ab m).
    { unfold I2. destruct (par ab m) as [p|] eqn:E; auto. pose proof (tree_par ab m p T ltac:(unfold n in *; lia) E). rewrite upd_other; auto; lia. }
    assert (Hmn : (m < n)%nat) by lia.
    pose proof (crba_inner m (imul (iact (twv ab m) (Icv ab m)) (Sw m)) m (imul (I2 m) (sub_at ab m)) (upd2 A1 m m (mdot (sub_at ab m) (imul (I2 m) (sub_at ab m)))) Hmn (le_n m)) as C.
    cbn zeta in C.
    match goal with |- context [fold_left ?f ?l ?s] => destruct (fold_left f l s) as [[? ?] A2] end. cbn [snd] in *.
    assert (FW : fact (twv ab m) (imul (I2 m) (sub_at ab m)) = imul (iact (twv ab m) (Icv ab m)) (Sw m)).
    { rewrite I2m. unfold Sw. rewrite imul_act; auto. }
    rewrite (C FW). clear C. unfold upd2.
    assert (DD : mdot (sub_at ab m) (imul (I2 m) (sub_at ab m)) = mdot (Sw m) (imul (iact (twv ab m) (Icv ab m)) (Sw m))).
    { rewrite <- FW. unfold Sw. rewrite mdot_act; auto. }
    rewrite DD. clear DD FW.
    unfold Aspec. destruct (Nat.eqb_spec a m), (Nat.eqb_spec b m); subst; cbn [andb].
    - rewrite Nat.max_id, Nat.leb_refl. rewrite ancb_self by auto. cbn. rewrite ?Nat.eqb_refl, ?andb_false_r. auto.
    - destruct (ancb b m) eqn:Eb; cbn [andb].
      + replace (Nat.eqb b m) with false by (symmetry; apply Nat.eqb_neq; auto). cbn.
        replace (Nat.leb m (Nat.max m b)) with true by (symmetry; apply Nat.leb_le; lia). auto.
      + rewrite HA by auto. unfold Aspec. rewrite Eb.
        destruct (Nat.leb_spec m (Nat.max m b)); [|lia]. destruct (Nat.leb_spec (Datatypes.S m) (Nat.max m b)); auto.
        rewrite (ancb_gt m b) by lia. auto.
    - destruct (ancb a m) eqn:Eb; cbn [andb].
      + replace (Nat.eqb a m) with false by (symmetry; apply Nat.eqb_neq; auto). cbn.
        replace (Nat.leb m (Nat.max a m)) with true by (symmetry; apply Nat.leb_le; lia).
        destruct (ancb m a) eqn:Em; auto. apply ancb_le in Em; auto. apply ancb_le in Eb; auto. lia.
      + rewrite HA by auto. unfold Aspec. rewrite Eb.
        destruct (Nat.leb_spec m (Nat.max a m)); [|lia]. destruct (Nat.leb_spec (Datatypes.S m) (Nat.max a m)); auto.
        rewrite (ancb_gt m a) by lia. auto.
    - rewrite HA by auto. unfold Aspec.
      replace (Nat.leb (Datatypes.S m) (Nat.max a b)) with (Nat.leb m (Nat.max a b)); auto.
      destruct (Nat.leb_spec (Datatypes.S m) (Nat.max a b)), (Nat.leb_spec m (Nat.max a b)); auto; lia. }
  intros i j Hi Hj. unfold Av, crbav. fold n. apply X; auto.
  intros a b Ha Hb. cbn [snd]. destruct (Nat.leb_spec n (Nat.max a b)); auto. lia.
Qed.

Hypothesis sym : forall i, (i < n)%nat -> isym (inertia_at ab i).
(** The inertia matrix as a sum over links. *)
Lemma A_world i j : (i < n)%nat -> (j < n)%nat ->
  Av ab i j = ksum n (fun k => if ancb i k && ancb j k then mdot (Sw i) (imul (Iw k) (Sw j)) else 0).
Proof.
  intros Hi Hj. rewrite Av_spec by auto. unfold Aspec.
  assert (SY : forall k a b, (k < n)%nat -> mdot a (imul (Iw k) b) = mdot b (imul (Iw k) a)).
  { intros k a b Hk. apply imul_sym. apply isym_act. auto. }
  destruct (ancb j i) eqn:E1; [|destruct (ancb i j) eqn:E2].
  - rewrite Ic_world, mdot_fsum by auto. apply ksum_ext. intros k Hk. rewrite mdot_if.
    destruct (ancb i k) eqn:E; auto. rewrite (ancb_trans j i k) by auto. cbn. apply SY; auto.
  - rewrite Ic_world, mdot_fsum by auto. apply ksum_ext. intros k Hk. rewrite mdot_if.
    destruct (ancb j k) eqn:E; [|rewrite andb_false_r; auto]. rewrite (ancb_trans i j k) by auto. auto.
  - symmetry. apply ksum_zero. intros k Hk. destruct (ancb i k) eqn:Ei, (ancb j k) eqn:Ej; auto.
    destruct (ancb_total i j k Hk Ei Ej); congruence.
Qed.
End Crba.
End World.
