(** Lagrange's equations (C62). *)
From Coq Require Import List Arith ZArith Bool Lia Reals Lra.
From Verif Require Import Scalar Base Spatial SpecGeo Joint Body Kin InvDyn FwdDyn Opspace OpspaceAba Deriv Sim Ops Instances Specs SpecCache SpecKin SpecDyn SpecReal SpecLag SpatialTac SpatialProofs TreeProofs CacheProofs CacheOps JointProofs BigSum KinProofs WorldProofs DynProofs LoadProofs DynApi AbaLaws RealDyn RealCalc RealMotion EnergyProofs HessProofs RealEnergy.
Import ListNotations.

Section Gen.
Context {S : Scal} {L : ScalLaws S} {PL : PosLaws S}.
Add Field kf : (@kfield S L).
Local Open Scope k_scope.
Variable ab : body.
Hypothesis T : tree_ok ab.
Hypothesis P : proper ab.
Let n := ab_dof ab.
Let Rr : rigid_robot ab := pr_rigid _ P.
Definition momenta (k : nat) : force := imul (inertia_at ab k) (velv ab k).
Lemma mom_world i : (i < n)%nat -> ksum n (fun j => Av ab i j * qk (ab_dq ab) j) = back ab momenta i.
Proof.
  intros Hi. rewrite (back_world ab T Rr momenta i Hi).
  transitivity (ksum n (fun j => ksum n (fun k => if ancb ab i k && ancb ab j k then mdot (Sw ab i) (imul (Iw ab k) (Sw ab j)) * qk (ab_dq ab) j else 0))).
  - apply ksum_ext. intros j Hj. rewrite (A_world ab T Rr (proper_mass _ P) (proper_sym _ P)) by auto. fold n. rewrite <- ksum_scale_r. apply ksum_ext. intros k _. destruct (_ && _); ring.
  - rewrite ksum_swap. apply ksum_ext. intros k Hk. destruct (ancb ab i k); cbn [andb]; [|apply ksum_zero; auto].
    unfold momenta. rewrite <- imul_act by (apply twv_rigid; auto). fold (Iw ab k). rewrite (vel_world ab T Rr k Hk), imul_msum, mdot_fsum. apply ksum_ext. intros j Hj.
    destruct (ancb ab j k); [rewrite imul_scale, mdot_scale_r; ring|]. rewrite imul_zero, mdot_zero_r. ring.
Qed.
Lemma Av_sym i j : (i < n)%nat -> (j < n)%nat -> Av ab i j = Av ab j i.
Proof.
  intros Hi Hj. rewrite !(A_world ab T Rr (proper_mass _ P) (proper_sym _ P)) by auto. apply ksum_ext. intros k Hk. rewrite andb_comm. destruct (_ && _); auto.
  apply imul_sym. apply isym_act. apply (proper_sym _ P). auto.
Qed.
End Gen.

Local Existing Instances RScal RLaws RPos REq.
Local Open Scope R_scope.
Lemma mdot_deriv (B : inertia) f g t a b : mot_deriv f t a -> mot_deriv g t b ->
  derivable_pt_lim (fun u => @mdot RScal (f u) (imul B (g u))) t (@mdot RScal a (imul B (g t)) + @mdot RScal (f t) (imul B b)).
Proof.
  intros [H1 H2] [H3 H4]. destruct H1 as (? & ? & ?), H2 as (? & ? & ?), H3 as (? & ? & ?), H4 as (? & ? & ?).
  eapply d_eq.
  - unfold mdot, imul. cbv [v3add v3sub v3cross v3scale v3dot m3mulv flin fang vx vy vz]. cbn [k0 k1 kadd kmul ksub kdiv kopp kinv RScal].
    repeat first [eassumption | apply d_const | apply d_add | apply d_sub | apply d_mul | apply d_opp].
  - unfold mdot, imul. destruct B as [m [c1 c2 c3] [[i1 i2 i3] [i4 i5 i6] [i7 i8 i9]]], (f t) as [[x1 x2 x3] [x4 x5 x6]], (g t) as [[z1 z2 z3] [z4 z5 z6]], a as [[y1 y2 y3] [y4 y5 y6]], b as [[w1 w2 w3] [w4 w5 w6]]. cbn. ring.
Qed.
Section Lag.
Variable ab : @body RScal.
Hypothesis T : tree_ok ab.
Hypothesis P : proper ab.
Hypothesis Pj : proper_joints ab.
Let n := ab_dof ab.
Let Rr : rigid_robot ab := pr_rigid _ P.
(** How a link's own velocity turns its joint axis. *)
Definition turn (a : @body RScal) (i : nat) : motion := mact (twv a i) (mcross (velv a i) (sub_at a i)).

Section Frozen.
Variables (q x : list R) (i : nat).
Hypothesis Lq : List.length q = n.
Hypothesis Lx : List.length x = n.
Hypothesis Hi : (i < n)%nat.
Let B u := at_ ab (replaced q i u) x.
Let t := @coef RScal q i.
Lemma Bt : B t = at_ ab q x.
Proof. unfold B, t. rewrite replaced_same. reflexivity. Qed.
Lemma BT u : tree_ok (B u).
Proof. apply at_tree; auto. rewrite replaced_length. auto. Qed.
Lemma vel_partial k : (k < n)%nat -> mot_deriv (fun u => velv (B u) k) t (if ancb ab i k then mact (iso_inv (twv (B t) k)) (turn (B t) i) else mzero).
Proof.
  induction k as [k IH] using lt_wf_ind. intros Hk.
  assert (VE : forall u, velv (B u) k = match par ab k with None => mscale (@qk RScal x k) (sub_at ab k)
     | Some p => madd (mscale (@qk RScal x k) (sub_at ab k)) (mact (iso_inv (tpv (B u) k)) (velv (B u) p)) end).
  { intros u. unfold velv. rewrite tval_eq by (auto using BT). reflexivity. }
  assert (TP : iso_deriv (fun u => tpv (B u) k) t (mscale (if Nat.eqb k i then 1 else 0) (sub_at ab k))).
  { pose proof (tp_deriv ab T Pj (replaced q i) (fun _ => unit_vec n i) t (replaced_deriv q i t n Lq) k Hk) as X. cbv beta in X.
    unfold unit_vec in X at 2. rewrite (@qk_vec RScal) in X by auto. exact X. }
  assert (Rk : rigid (twv (B t) k)) by (apply (twv_rigid (B t) k Rr (BT t)); auto).
  assert (Rp : rigid (tpv (B t) k)) by (apply (tpv_rigid (B t) k Rr (BT t)); auto).
  assert (TK : ancb ab i k = true -> k = i -> mact (iso_inv (twv (B t) k)) (turn (B t) i) = mcross (velv (B t) k) (sub_at ab k)).
  { intros _ ->. unfold turn. rewrite mact_inv_l by auto. reflexivity. }
  eapply mot_deriv_ext; [exact VE|].
  rewrite (ancb_step ab T i k Hk). pose proof (VE t) as Vt. destruct (par ab k) as [p|] eqn:E.
  - pose proof (tree_par _ _ _ T Hk E) as Hp.
    eapply mot_deriv_eq; [apply mot_deriv_add; [apply mot_deriv_const|apply mot_deriv_into; [exact TP|apply IH; [lia|unfold n in *; lia]|exact Rp]]|].
    cbv beta. destruct (Nat.eqb_spec k i) as [->|N].
    + rewrite Nat.eqb_refl. cbn [orb]. rewrite (ancb_gt ab T i p) by (unfold n in *; lia).
      rewrite TK; [|apply ancb_self; auto|reflexivity]. rewrite Vt, mcross_add_l, !mcross_scale_l, mcross_self.
      rewrite mact_zero. generalize (mact (iso_inv (tpv (B t) i)) (velv (B t) p)) (sub_at ab i). intros m s. rewrite (mcross_anti m s).
      generalize (mcross s m) (@qk RScal x i). intros; cases; runf; ext; rr.
    + replace (Nat.eqb i k) with false by (symmetry; apply Nat.eqb_neq; auto). cbn [orb].
      assert (Y : forall m z, madd mzero (msub m (mcross (mscale 0 (sub_at ab k)) z)) = m).
      { intros m z. rewrite mcross_scale_l. generalize (mcross (sub_at ab k) z). intros; cases; runf; ext; rr. }
      rewrite Y. destruct (ancb ab i p); [|apply mact_zero].
      rewrite (twv_eq (B t) k (BT t) Hk). change (par (B t) k) with (par ab k). rewrite E.
      rewrite mact_inv_mul; auto. apply (twv_rigid (B t) p Rr (BT t)). cbn. unfold n in *. lia.
  - eapply mot_deriv_eq; [apply mot_deriv_const|]. destruct (Nat.eqb_spec i k) as [->|N]; [|reflexivity].
    rewrite TK; [|apply ancb_self; auto|reflexivity]. rewrite Vt, mcross_scale_l, mcross_self. generalize (@qk RScal x k). intros; cases; runf; ext; rr.
Qed.
(** The derivative of the kinetic energy with respect to [q_i]. *)
Definition pull (a : @body RScal) (j : nat) : R :=
  @ksum RScal n (fun k => if ancb ab j k then @mdot RScal (turn a j) (fact (twv a k) (momenta a k)) else 0).
Lemma kin_partial : derivable_pt_lim (fun u => @quad RScal (mat n n (Av (B u))) x x / 2) t (pull (at_ ab q x) i).
Proof.
  assert (Pu : forall u, proper (B u)) by (intros; destruct P; constructor; auto).
  eapply d_ext with (g := fun u => @ksum RScal n (fun k => @mdot RScal (velv (B u) k) (imul (inertia_at ab k) (velv (B u) k))) * / 2).
  { intros u. unfold Rdiv. f_equal. pose proof (@kinetic_sum RScal RLaws RPos (B u) (BT u) (Pu u) Lx) as X. exact X. }
  eapply d_eq; [apply d_mul; [|apply d_const]; apply d_ksum; intros k Hk; apply energy_deriv; [apply (proper_sym _ P); auto|apply vel_partial; auto]|].
  unfold pull. rewrite <- Bt.
  assert (X : forall (f g : nat -> R) z, (forall k, (k < n)%nat -> f k = 2 * g k) -> @ksum RScal n f * / 2 + z * 0 = @ksum RScal n g).
  { intros f g z H. rewrite (@ksum_ext RScal n f (fun k => 2 * g k) H). pose proof (@ksum_scale RScal RLaws n 2 g) as Z. toR.
    match goal with |- ?a * _ + _ * 0 = ?b => assert (E : a = 2 * b) by exact Z; rewrite E; field end. }
  apply X. intros k Hk. cbv beta. destruct (ancb ab i k).
  - rewrite mdot_act_r by (apply (twv_rigid (B t) k Rr (BT t)); auto). unfold momenta. change (inertia_at (B t)) with (inertia_at ab).
    f_equal. apply imul_sym. apply (proper_sym _ P). auto.
  - rewrite imul_zero, mdot_zero_r. toR. cbn [k0 RScal]. ring.
Qed.
End Frozen.

Section Along.
Variables (q dq : R -> list R) (t : R) (ddq : list R) (i : nat).
Hypothesis Lq : forall u, List.length (q u) = n.
Hypothesis Ld : forall u, List.length (dq u) = n.
Hypothesis Hq : vec_deriv n q t (dq t).
Hypothesis Hd : vec_deriv n dq t ddq.
Hypothesis Hi : (i < n)%nat.
Let B u := at_ ab (q u) (dq u).
Lemma mom_deriv : derivable_pt_lim (fun u => @ksum RScal n (fun j => Av (B u) i j * @qk RScal (dq u) j)) t
  (pull (B t) i + @id_base RScal (B t) quiet ddq (fun _ => None) i).
Proof.
  assert (Tu : forall u, tree_ok (B u)) by (intros; apply at_tree; auto).
  assert (Pu : forall u, proper (B u)) by (intros; destruct P; constructor; auto).
  assert (Ru : forall u k, (k < n)%nat -> rigid (twv (B u) k)) by (intros u k Hk; apply (twv_rigid (B u) k Rr (Tu u)); auto).
  assert (TW : forall k, (k < n)%nat -> iso_deriv (fun u => twv (B u) k) t (velv (B t) k)) by (intros k Hk; apply (tw_deriv ab T Rr Pj q dq Lq Ld t Hq k Hk)).
  eapply d_ext with (g := fun u => @ksum RScal n (fun k => if ancb ab i k then @mdot RScal (mact (iso_inv (twv (B u) k)) (Sw (B u) i)) (imul (inertia_at ab k) (velv (B u) k)) else 0)).
  { intros u. pose proof (@mom_world RScal RLaws RPos (B u) (Tu u) (Pu u) i Hi) as X. rewrite (@back_world RScal RLaws (B u) (Tu u) Rr) in X by auto.
    eapply eq_trans; [exact X|]. apply (@ksum_ext RScal). intros k Hk. change (ancb (B u) i k) with (ancb ab i k). destruct (ancb ab i k); auto.
    rewrite mdot_act_r by (apply Ru; auto). reflexivity. }
  eapply d_eq.
  - apply d_ksum with (f' := fun k => if ancb ab i k then
       @mdot RScal (msub (mact (iso_inv (twv (B t) k)) (turn (B t) i)) (mcross (velv (B t) k) (mact (iso_inv (twv (B t) k)) (Sw (B t) i)))) (imul (inertia_at ab k) (velv (B t) k)) +
       @mdot RScal (mact (iso_inv (twv (B t) k)) (Sw (B t) i)) (imul (inertia_at ab k) (accv (B t) quiet ddq k)) else 0).
    intros k Hk. destruct (ancb ab i k); [|apply d_const]. apply mdot_deriv.
    + apply mot_deriv_into; [apply TW; auto| |apply Ru; auto].
      apply (mot_deriv_out (fun u => twv (B u) i) (sub_at ab i) t (velv (B t) i)); [apply TW; auto|apply Ru; auto].
    + apply (vel_deriv ab T Rr Pj q dq Lq Ld t Hq ddq Hd quiet); auto.
  - assert (X : @id_base RScal (B t) quiet ddq (fun _ => None) i = @back RScal (B t) (idf0 (B t) quiet ddq (fun _ => None)) i).
    { symmetry. apply (@id_decomp RScal RLaws (B t) (Tu t) Rr RPos (proper_mass _ (Pu t)) (proper_sym _ (Pu t)) quiet ddq (fun _ => None) i Hi). }
    rewrite X, (@back_world RScal RLaws (B t) (Tu t) Rr) by auto. unfold pull.
    match goal with |- _ = ?a + ?b => change (a + b) with (@kadd RScal a b) end. change (ab_dof (B t)) with n. rewrite <- (@ksum_add RScal RLaws). apply (@ksum_ext RScal). intros k Hk.
    change (ancb (B t) i k) with (ancb ab i k). destruct (ancb ab i k); [|toR; cbn [kadd k0 RScal]; ring].
    rewrite !mdot_act_r by (apply Ru; auto). unfold idf0, momenta. cbn [quiet o_cc]. cbv zeta.
    change (inertia_at (B t)) with (inertia_at ab). rewrite mdot_add_r.
    set (s := mact (iso_inv (twv (B t) k)) (Sw (B t) i)). set (v := velv (B t) k). set (f := imul (inertia_at ab k) v).
    pose proof (@mcross_dual RScal RLaws v s f) as Y. set (r := mact (iso_inv (twv (B t) k)) (turn (B t) i)).
    assert (Z : @mdot RScal (msub r (mcross v s)) f = @mdot RScal r f - @mdot RScal (mcross v s) f) by (generalize (mcross v s); intros; destruct r as [[? ? ?] [? ? ?]], m as [[? ? ?] [? ? ?]], f as [[? ? ?] [? ? ?]]; cbn; ring).
    rewrite Z, Y. toR. cbn [kadd kopp RScal]. ring.
Qed.
End Along.
Lemma pull_root q x i : List.length q = n -> List.length x = n -> (i < n)%nat -> par ab i = None -> pull (at_ ab q x) i = 0.
Proof.
  intros Lq Lx Hi E. assert (Z : turn (at_ ab q x) i = mzero).
  { unfold turn. rewrite (velv_eq (at_ ab q x) (at_tree ab q x T Lq Lx) i) by auto. unfold vel_at. change (par (at_ ab q x) i) with (par ab i). rewrite E.
    rewrite mcross_scale_l, mcross_self. rewrite <- (mact_zero (twv (at_ ab q x) i)). f_equal. generalize (@qk RScal (ab_dq (at_ ab q x)) i). intros; runf; ext; rr. }
  unfold pull. apply (@ksum_zero RScal RLaws). intros k Hk. rewrite Z. destruct (ancb ab i k); auto. generalize (fact (twv (at_ ab q x) k) (momenta (at_ ab q x) k)). intros; cases; runf; rr.
Qed.
End Lag.

(** The derivative of x' M x / 2 for a symmetric M. *)
Lemma quad_ksum n (M : nat -> nat -> R) (x : list R) : List.length x = n ->
  @quad RScal (mat n n M) x x = @ksum RScal n (fun a => @coef RScal x a * @ksum RScal n (fun b => M a b * @coef RScal x b)).
Proof.
  intros Lx. unfold quad. change (@List.length (@K RScal) x) with (@List.length R x). rewrite Lx, (@total_ksum RScal RLaws). apply (@ksum_ext RScal). intros a Ha. rewrite (@total_ksum RScal RLaws). apply (f_equal (Rmult (@coef RScal x a))).
  apply (@ksum_ext RScal). intros b Hb. rewrite (@entry_mat RScal) by auto. reflexivity.
Qed.
Lemma quad_deriv n (M : nat -> nat -> R) (x : list R) i : List.length x = n -> (i < n)%nat -> (forall a b, (a < n)%nat -> (b < n)%nat -> M a b = M b a) ->
  derivable_pt_lim (fun y => @quad RScal (mat n n M) (replaced x i y) (replaced x i y) / 2) (@coef RScal x i) (@ksum RScal n (fun j => M i j * @coef RScal x j)).
Proof.
  intros Lx Hi Sy. set (t := @coef RScal x i).
  assert (X : forall a, (a < n)%nat -> derivable_pt_lim (fun y => @coef RScal (replaced x i y) a) t (if Nat.eqb a i then 1 else 0)).
  { intros a Ha. pose proof (replaced_deriv x i t n Lx a Ha) as D. rewrite (@coef_vec RScal) in D by auto. exact D. }
  eapply d_ext with (g := fun y => @ksum RScal n (fun a => @coef RScal (replaced x i y) a * @ksum RScal n (fun b => M a b * @coef RScal (replaced x i y) b)) * / 2).
  { intros y. unfold Rdiv. f_equal. apply quad_ksum. rewrite replaced_length. auto. }
  eapply d_eq.
  - apply d_mul; [|apply d_const]. apply d_ksum. intros a Ha. apply d_mul; [apply X; auto|]. apply d_ksum. intros b Hb. apply d_mul; [apply d_const|apply X; auto].
  - cbv beta. unfold t. rewrite !replaced_same. set (Y := fun a => @ksum RScal n (fun b => M a b * @coef RScal x b)).
    assert (E : forall a, (a < n)%nat -> @ksum RScal n (fun b => 0 * @coef RScal x b + M a b * (if Nat.eqb b i then 1 else 0)) = M a i).
    { intros a Ha. rewrite <- (@ksum_single RScal RLaws n i (fun b => M a b) Hi). apply (@ksum_ext RScal). intros b Hb. destruct (Nat.eqb b i); rr. }
    assert (F : @ksum RScal n (fun a => (if Nat.eqb a i then 1 else 0) * Y a + @coef RScal x a * @ksum RScal n (fun b => 0 * @coef RScal x b + M a b * (if Nat.eqb b i then 1 else 0))) = Y i + Y i).
    { match goal with |- _ = ?u + ?v => change (u + v) with (@kadd RScal u v) end.
      rewrite <- (@ksum_single RScal RLaws n i Y Hi) at 1. unfold Y at 3. rewrite <- (@ksum_add RScal RLaws). apply (@ksum_ext RScal). intros a Ha. rewrite E by auto. rewrite (Sy a i Ha Hi).
      destruct (Nat.eqb a i); rr. }
    match type of F with _ = ?r => transitivity (r * / 2 + 0); [|change (@ksum RScal n (fun j => M i j * @coef RScal x j)) with (Y i); generalize (Y i); intros z; change R in z; toR; cbn [kadd RScal]; field] end.
    refine (f_equal2 Rplus (f_equal2 Rmult F eq_refl) _). ring.
Qed.

Lemma ar1 (a d g x : R) : a = d + (a - g - x) - (d - g) + x.
Proof. ring. Qed.
Lemma ar2 (a g x : R) : 0 + (a - g - x) = a - g - x.
Proof. ring. Qed.
Section Api.
Variable solve : list (list R) -> list R -> list R.
Variable pinv : list (list R) -> R -> list (list R) * bool.
(** The potential energy as a function. *)
Definition Pot (ab : @body RScal) (q x : list R) : R := - over_bodies ab (fun k B => imass B * v3dot (mlin (ab_g ab)) (Pall (at_ ab q x) k (icom B))).
Lemma Pot_ok h ab q x : reached solve pinv h ab -> List.length q = ab_dof ab -> List.length x = ab_dof ab -> potential ab q (Pot ab q x).
Proof.
  intros Rh Lq Lx. pose proof (tree_reached _ _ _ _ Rh) as T. exists (Pall (at_ ab q x)). split; auto. intros k off Hk.
  apply (pos_at ab q x (Z.of_nat k) k off); auto. apply idx_nat; auto.
Qed.
Definition Lagr (ab : @body RScal) (g : bool) (q x : list R) : R :=
  @quad RScal (mat (ab_dof ab) (ab_dof ab) (Av (at_ ab q x))) x x / 2 - (if g then Pot ab q x else 0).
Lemma placed_inertia h ab q x r : reached solve pinv h ab -> base_fixed false h = true -> placed ab q x r ->
  outcome (ask solve pinv QInertia r) = Ok (AMat (mat (ab_dof ab) (ab_dof ab) (Av (at_ ab q x)))).
Proof.
  intros Rh Bf Mp. destruct (placed_at _ _ _ _ Mp) as (_ & _ & E).
  destruct (@reached_wfc RScal solve pinv (@laws_comm RScal RLaws) _ _ (placed_reached solve pinv _ _ _ _ _ Rh Mp) (base_fixed_app _ _ _ _ Bf)) as [T' W'].
  cbn [ask]. rewrite outcome_wrap, (out_Inertia _ T' W'). cbn [bind]. rewrite E. reflexivity.
Qed.
Lemma Lagr_ok h ab g q x r : reached solve pinv h ab -> base_fixed false h = true -> placed ab q x r -> lagrangian solve pinv g r (Lagr ab g q x).
Proof.
  intros Rh Bf Mp. destruct (placed_at _ _ _ _ Mp) as (Lq & Lx & E).
  exists (@quad RScal (mat (ab_dof ab) (ab_dof ab) (Av (at_ ab q x))) x x / 2), (Pot ab q x).
  assert (E1 : ab_dq r = x) by (rewrite E; reflexivity). assert (E2 : ab_q r = q) by (rewrite E; reflexivity).
  split; [|split; [|reflexivity]].
  - exists (mat (ab_dof ab) (ab_dof ab) (Av (at_ ab q x))). rewrite E1. split; auto. eapply placed_inertia; eauto.
  - rewrite E2, E. exact (Pot_ok h ab q x Rh Lq Lx).
Qed.
Definition pm (ab : @body RScal) (q x : list R) (i : nat) : R := @ksum RScal (ab_dof ab) (fun j => Av (at_ ab q x) i j * @coef RScal x j).
Lemma Lagr_dq h ab g q x i : reached solve pinv h ab -> base_fixed false h = true -> proper ab ->
  List.length q = ab_dof ab -> List.length x = ab_dof ab -> (i < ab_dof ab)%nat ->
  derivable_pt_lim (fun y => Lagr ab g q (replaced x i y)) (@coef RScal x i) (pm ab q x i).
Proof.
  intros Rh Bf P Lq Lx Hi. pose proof (tree_reached _ _ _ _ Rh) as T.
  eapply d_ext with (g := fun y => @quad RScal (mat (ab_dof ab) (ab_dof ab) (Av (at_ ab q x))) (replaced x i y) (replaced x i y) / 2 - (if g then Pot ab q x else 0)).
  { reflexivity. }
  eapply d_eq; [apply d_sub; [apply quad_deriv; auto|apply d_const]|unfold pm; ring].
  intros a b Ha Hb. apply (@Av_sym RScal RLaws RPos (at_ ab q x) (at_tree ab q x T Lq Lx)); auto. destruct P; constructor; auto.
Qed.
(** Everything known at one instant of a motion. *)
Lemma instant h ab q dq rob t ddq o fe : reached solve pinv h ab -> base_fixed false h = true -> proper ab -> proper_joints ab ->
  moving ab q dq rob t ddq -> o_cc o = true -> o_fric o = false ->
  exists tau X G, outcome (ask solve pinv (QID ddq fe o) (rob t)) = Ok (AVec tau) /\ outcome (ask solve pinv (QExt fe) (rob t)) = Ok (AVec X) /\
    outcome (ask solve pinv QGrav (rob t)) = Ok (AVec G) /\
    forall i, (i < ab_dof ab)%nat ->
      derivable_pt_lim (fun u => pm ab (q u) (dq u) i) t (pull ab (at_ ab (q t) (dq t)) i + (@coef RScal tau i - (if o_grav o then @coef RScal G i else 0) - @coef RScal X i)) /\
      derivable_pt_lim (fun y => Lagr ab (o_grav o) (replaced (q t) i y) (dq t)) (@coef RScal (q t) i) (pull ab (at_ ab (q t) (dq t)) i - (if o_grav o then @coef RScal G i else 0)).
Proof.
  intros Rh Bf P Pj M Oc Of. pose proof (tree_reached _ _ _ _ Rh) as T.
  destruct (placed_at _ _ _ _ (mv_placed _ _ _ _ _ _ M t)) as (Lq & Ld & Ea).
  pose proof (placed_reached solve pinv _ _ _ _ _ Rh (mv_placed _ _ _ _ _ _ M t)) as Rt. pose proof (base_fixed_app _ _ (q t) (dq t) Bf) as Bt'.
  destruct (@reached_wfc RScal solve pinv (@laws_comm RScal RLaws) _ _ Rt Bt') as [T' W'].
  assert (P' : proper (rob t)) by (rewrite Ea; apply at_proper; auto).
  assert (Dn : ab_dof (rob t) = ab_dof ab) by (rewrite Ea; reflexivity).
  assert (Lq' : forall u, List.length (q u) = ab_dof ab) by (intros u; apply (placed_at _ _ _ _ (mv_placed _ _ _ _ _ _ M u))).
  assert (Ld' : forall u, List.length (dq u) = ab_dof ab) by (intros u; apply (placed_at _ _ _ _ (mv_placed _ _ _ _ _ _ M u))).
  exists (vec (ab_dof ab) (@id_base RScal (at_ ab (q t) (dq t)) o ddq fe)), (vec (ab_dof ab) (Extv (at_ ab (q t) (dq t)) fe)), (vec (ab_dof ab) (Gv (at_ ab (q t) (dq t)))).
  assert (HG : outcome (ask solve pinv QGrav (rob t)) = Ok (AVec (vec (ab_dof ab) (Gv (at_ ab (q t) (dq t)))))).
  { cbn [ask]. rewrite outcome_wrap, (out_Grav (rob t) T' W'). cbn [bind]. rewrite Ea. reflexivity. }
  split; [|split; [|split; [exact HG|]]].
  - rewrite (@ask_ID RScal RLaws RPos solve pinv (rob t) ddq fe o T' W' P') by (rewrite Dn; apply M). rewrite Dn.
    unfold plus_friction. rewrite Of, Ea. reflexivity.
  - cbn [ask]. rewrite outcome_wrap, (out_Ext (rob t) T' W' fe). cbn [bind]. rewrite Ea. reflexivity.
  - intros i Hi. rewrite !(@coef_vec RScal) by auto. split.
    + eapply d_eq; [exact (mom_deriv ab T P Pj q dq t ddq i Lq' Ld' (mv_q _ _ _ _ _ _ M) (mv_dq _ _ _ _ _ _ M) Hi)|].
      f_equal. unfold id_base. cbn [quiet o_cc o_grav]. rewrite Oc.
      assert (Z : Extv (at_ ab (q t) (dq t)) (fun _ => None) i = 0).
      { unfold Extv. rewrite (@back_ext RScal RLaws (at_ ab (q t) (dq t)) (at_tree ab _ _ T Lq Ld) (pr_rigid _ P) _ (fun _ => fzero)) by auto.
        apply (@back_zero RScal RLaws (at_ ab (q t) (dq t)) (at_tree ab _ _ T Lq Ld) (pr_rigid _ P)); auto. }
      rewrite Z. toR. destruct (o_grav o); cbn [kadd kmul k0 RScal]; ring.
    + unfold Lagr. apply d_sub; [exact (kin_partial ab T P Pj (q t) (dq t) i Lq Ld Hi)|]. destruct (o_grav o); [|apply d_const].
      destruct (c15_potential solve pinv _ (rob t) i Rt Bt' P') as (U & G & HU & HG' & HD); [rewrite Ea; exact Pj|rewrite Dn; auto|].
      rewrite HG in HG'. injection HG' as <-. rewrite (@coef_vec RScal) in HD by auto. assert (E2 : ab_q (rob t) = q t) by (rewrite Ea; reflexivity). rewrite E2 in *.
      eapply d_ext; [|exact HD]. intros y. eapply potential_unique; [eapply Pot_ok; eauto; rewrite replaced_length; auto|]. specialize (HU y). rewrite Ea in HU. exact HU.
Qed.
Lemma c62_lagrange h ab q dq rob t ddq o fe i : reached solve pinv h ab -> base_fixed false h = true -> proper ab -> proper_joints ab ->
  moving ab q dq rob t ddq -> o_cc o = true -> o_fric o = false -> (i < ab_dof ab)%nat ->
  exists Lag p F P tau X, (forall q' x r, placed ab q' x r -> lagrangian solve pinv (o_grav o) r (Lag q' x)) /\
    (forall u, derivable_pt_lim (fun y => Lag (q u) (replaced (dq u) i y)) (@coef RScal (dq u) i) (p u)) /\
    derivable_pt_lim (fun y => Lag (replaced (q t) i y) (dq t)) (@coef RScal (q t) i) F /\
    derivable_pt_lim p t P /\
    outcome (ask solve pinv (QID ddq fe o) (rob t)) = Ok (AVec tau) /\ outcome (ask solve pinv (QExt fe) (rob t)) = Ok (AVec X) /\
    @coef RScal tau i = P - F + @coef RScal X i.
Proof.
  intros Rh Bf P Pj M Oc Of Hi. destruct (instant h ab q dq rob t ddq o fe Rh Bf P Pj M Oc Of) as (tau & X & G & H1 & H2 & H3 & H4).
  destruct (H4 i Hi) as [H5 H6]. exists (Lagr ab (o_grav o)), (fun u => pm ab (q u) (dq u) i). do 2 eexists. exists tau, X.
  split; [intros; eapply Lagr_ok; eauto|]. split; [intros u; destruct (placed_at _ _ _ _ (mv_placed _ _ _ _ _ _ M u)) as (? & ? & _); eapply Lagr_dq; eauto|].
  split; [exact H6|]. split; [exact H5|]. split; auto. split; auto. apply ar1.
Qed.
Lemma pm_ok h ab q x r i : reached solve pinv h ab -> base_fixed false h = true -> placed ab q x r -> (i < ab_dof ab)%nat -> momentum solve pinv r i (pm ab q x i).
Proof.
  intros Rh Bf Mp Hi. destruct (placed_at _ _ _ _ Mp) as (Lq & Lx & E). exists (mat (ab_dof ab) (ab_dof ab) (Av (at_ ab q x))). split; [eapply placed_inertia; eauto|].
  assert (E1 : ab_dq r = x) by (rewrite E; reflexivity). assert (E2 : ab_dof r = ab_dof ab) by (rewrite E; reflexivity). rewrite E1, E2.
  unfold pm, row_times. rewrite (@total_ksum RScal RLaws). apply (@ksum_ext RScal). intros j Hj. rewrite (@entry_mat RScal) by auto. reflexivity.
Qed.
Lemma momentum_unique r i a b : momentum solve pinv r i a -> momentum solve pinv r i b -> a = b.
Proof. intros (A & H1 & ->) (B & H2 & ->). rewrite H1 in H2. injection H2 as ->. auto. Qed.
Lemma c62_root h ab q dq rob t ddq o fe i : reached solve pinv h ab -> base_fixed false h = true -> proper ab -> proper_joints ab ->
  moving ab q dq rob t ddq -> o_cc o = true -> o_fric o = false -> (i < ab_dof ab)%nat -> rb_parent (rb_at ab i) = (-1)%Z ->
  exists p tau X G, (forall u, momentum solve pinv (rob u) i (p u)) /\
    outcome (ask solve pinv (QID ddq fe o) (rob t)) = Ok (AVec tau) /\ outcome (ask solve pinv (QExt fe) (rob t)) = Ok (AVec X) /\
    outcome (ask solve pinv QGrav (rob t)) = Ok (AVec G) /\
    derivable_pt_lim p t (@coef RScal tau i - (if o_grav o then @coef RScal G i else 0) - @coef RScal X i).
Proof.
  intros Rh Bf P Pj M Oc Of Hi Rt. destruct (instant h ab q dq rob t ddq o fe Rh Bf P Pj M Oc Of) as (tau & X & G & H1 & H2 & H3 & H4).
  destruct (H4 i Hi) as [H5 _]. exists (fun u => pm ab (q u) (dq u) i), tau, X, G.
  split; [intros u; eapply pm_ok; eauto; apply M|]. do 3 (split; auto). eapply d_eq; [exact H5|].
  destruct (placed_at _ _ _ _ (mv_placed _ _ _ _ _ _ M t)) as (Lq & Ld & _).
  rewrite pull_root; auto; [apply ar2|eapply tree_reached; eauto|unfold par; rewrite Rt; reflexivity].
Qed.
Lemma c62_conserved h ab q dq ddq rob tau o i : reached solve pinv h ab -> base_fixed false h = true -> proper ab -> proper_joints ab ->
  (forall t, moving ab q dq rob t (ddq t)) -> o_cc o = true -> o_fric o = false -> (i < ab_dof ab)%nat -> rb_parent (rb_at ab i) = (-1)%Z ->
  (forall t A, outcome (ask solve pinv QInertia (rob t)) = Ok (AMat A) -> solver_ok solve (ab_dof ab) A) ->
  (forall t, List.length (tau t) = ab_dof ab /\ @coef RScal (tau t) i = 0) ->
  (o_grav o = true -> forall t G, outcome (ask solve pinv QGrav (rob t)) = Ok (AVec G) -> @coef RScal G i = 0) ->
  (forall t, outcome (ask solve pinv (QFD (tau t) (fun _ => None) o) (rob t)) = Ok (AVec (ddq t))) ->
  exists p, forall t, momentum solve pinv (rob t) i p.
Proof.
  intros Rh Bf P Pj M Oc Of Hi Rt HS Ht Hg HF.
  assert (D : forall t, exists p, (forall u, momentum solve pinv (rob u) i (p u)) /\ derivable_pt_lim p t 0).
  { intros t. destruct (c62_root h ab q dq rob t (ddq t) o (fun _ => None) i Rh Bf P Pj (M t) Oc Of Hi Rt) as (p & tau' & X & G & H1 & H2 & H3 & H4 & H5).
    exists p. split; auto. eapply d_eq; [exact H5|].
    rewrite (ext_none solve pinv h ab (q t) (dq t) (rob t) Rh Bf P (mv_placed _ _ _ _ _ _ (M t) t)) in H3. injection H3 as <-.
    destruct (placed_at _ _ _ _ (mv_placed _ _ _ _ _ _ (M t) t)) as (Lq & Ld & Ea).
    pose proof (placed_reached solve pinv _ _ _ _ _ Rh (mv_placed _ _ _ _ _ _ (M t) t)) as Rr. pose proof (base_fixed_app _ _ (q t) (dq t) Bf) as Bt'.
    assert (P' : proper (rob t)) by (rewrite Ea; apply at_proper; auto).
    assert (Dn : ab_dof (rob t) = ab_dof ab) by (rewrite Ea; reflexivity).
    destruct (@c17 RScal RLaws RPos solve pinv _ _ (fun _ => None) o Rr Bt' P' Of) as (A & HA & HC).
    rewrite Dn in HC. destruct (HC (HS t A HA)) as [K1 _]. destruct (Ht t) as [T1 T2]. destruct (K1 (tau t) T1) as (ddq' & E1 & E2).
    rewrite HF in E1. injection E1 as <-. rewrite E2 in H2. injection H2 as <-. change (@coef RScal (zeros (ab_dof ab)) i) with (@qk RScal (zeros (ab_dof ab)) i). rewrite qk_zeros, T2.
    destruct (o_grav o); [rewrite (Hg eq_refl t G H4)|]; toR; ring. }
  destruct (D 0) as (p & Hp & _). exists (p 0). intros t. rewrite (constant_of p) with (t := t); auto.
  intros s. destruct (D s) as (p' & Hp' & HD). eapply d_ext; [|exact HD]. intros u. eapply momentum_unique; eauto.
Qed.
End Api.
