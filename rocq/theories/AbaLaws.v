(** The articulated-body recursion solves the Newton-Euler equations. *)
From Coq Require Import List Arith ZArith Bool Lia Ring Field.
From Verif Require Import Scalar Base Spatial SpecGeo Joint Body Kin InvDyn FwdDyn Opspace OpspaceAba Deriv Sim Ops Specs SpecCache SpecKin SpecDyn SpecAba SpatialProofs TreeProofs CacheProofs CacheOps SpatialTac BigSum KinProofs WorldProofs DynProofs AbaProofs AinvProofs.
Import ListNotations.

Section BackS.
Context {S : Scal}.
Local Open Scope k_scope.
Variable ab : body.
Hypothesis T : tree_ok ab.
Let n := ab_dof ab.
Variable f0 : arr force.
Definition Fg (c : nat) (F acc : force) : force := fadd acc (fact (tpv ab c) F).
Definition Fv : nat -> force := sval ab f0 Fg.
Lemma back_sval i : (i < n)%nat -> back ab f0 i = mdot (sub_at ab i) (Fv i).
Proof.
  intros Hi. unfold back. fold n.
  pose proof (for_down_ind (fun m (s : arr K * arr force) => let '(out, f) := s in
     (forall j, (j < m)%nat -> f j = part ab f0 Fg m j) /\
     (forall j, (m <= j < n)%nat -> out j = mdot (sub_at ab j) (Fv j))) n (back_step ab (tpv ab)) (fun _ => 0, f0)) as X.
  destruct (for_down n _ _) as [out f]. cbn beta iota in X. cbn [fst]. destruct X as (_ & X); [| |apply X; lia].
  - split; [|lia]. intros j Hj. unfold n; rewrite part_end. auto.
  - intros j [o1 f1] Hj (Y1 & Y2). unfold back_step.
    assert (F : f1 j = Fv j) by (rewrite Y1 by lia; apply part_all; auto).
    destruct (par ab j) as [p|] eqn:P.
    + split.
      * intros k Hk. destruct (Nat.eq_dec k p) as [->|N].
        { rewrite upd_same. rewrite (part_par ab f0 Fg j p) by auto. unfold Fg at 1. fold Fv.
          rewrite Y1 by (apply (tree_par _ _ _ T) in P; auto; lia). rewrite F. reflexivity. }
        { rewrite upd_other by lia. rewrite Y1 by lia. symmetry. apply part_other; auto. congruence. }
      * intros k Hk. destruct (Nat.eq_dec k j) as [->|N]; [rewrite upd_same, F; auto|]. rewrite upd_other by lia. apply Y2. lia.
    + split.
      * intros k Hk. rewrite Y1 by lia. symmetry. apply part_other; auto. congruence.
      * intros k Hk. destruct (Nat.eq_dec k j) as [->|N]; [rewrite upd_same, F; auto|]. rewrite upd_other by lia. apply Y2. lia.
Qed.
End BackS.

Section Laws.
Context {S : Scal} {L : ScalLaws S}.
Local Open Scope k_scope.
Add Field kf : (@kfield S L).
Variable ab : body.
Hypothesis T : tree_ok ab.
Hypothesis RR : rigid_robot ab.
Let n := ab_dof ab.
Hypothesis sym : forall i, (i < n)%nat -> isym (inertia_at ab i).
Hypothesis AR : articulable ab.

Lemma mact_inv_mul A B m : rigid A -> rigid B -> mact (iso_inv (iso_mul A B)) m = mact (iso_inv B) (mact (iso_inv A) m).
Proof.
  intros HA HB. transitivity (mact (iso_inv (iso_mul A B)) (mact (iso_mul A B) (mact (iso_inv B) (mact (iso_inv A) m)))).
  - rewrite mact_mul by auto. rewrite !mact_inv_r by auto. auto.
  - apply mact_inv_l. apply rigid_mul; auto.
Qed.
Lemma dv_neq i : (i < n)%nat -> dv ab i <> 0.
Proof. intros Hi. rewrite dv_joint. apply AR; auto. Qed.
Lemma child_lt i c : (i < n)%nat -> In c (children ab i) -> (i < c < n)%nat /\ par ab c = Some i.
Proof.
  intros Hi Hc. apply children_in in Hc. destruct Hc as [Hc P]. pose proof (tree_par _ _ _ T Hc P). fold n in Hc. repeat split; auto; lia.
Qed.
(** Induction from the leaves. *)
Lemma leaves_ind (Q : nat -> Prop) : (forall i, (i < n)%nat -> (forall c, (i < c < n)%nat -> Q c) -> Q i) -> forall i, (i < n)%nat -> Q i.
Proof.
  intros H. assert (D : forall d i, (n - i <= d)%nat -> (i < n)%nat -> Q i).
  { induction d; intros i Hd Hi; [lia|]. apply H; auto. intros c Hc. apply IHd; lia. }
  intros i Hi. apply (D n); lia.
Qed.
Lemma IAv_sym i : (i < n)%nat -> i6sym (IAv ab i).
Proof.
  revert i. apply leaves_ind. intros i Hi IH. unfold IAv. rewrite sval_eq by auto. fold (IAv ab).
  assert (G : forall l, (forall c, In c l -> (i < c < n)%nat) ->
    i6sym (fold_right (fun c acc => i6add acc (i6act (tpv ab c) (yields (IAv ab c) (sub_at ab c)))) (i6_of (inertia_at ab i)) l)).
  { induction l as [|c l IHl]; cbn [fold_right]; intros Hl; [apply i6sym_of|].
    apply i6sym_add; [apply IHl; intros; apply Hl; right; auto|]. apply i6sym_act. unfold yields. apply i6sym_sub; [|apply i6sym_outer].
    apply IH, Hl. left; auto. }
  apply G. intros c Hc. apply child_lt in Hc; tauto.
Qed.

Section Motion.
(** Accelerations [acc] produced by joint accelerations [x] under root accelerations
    [r] and bias accelerations [a0]; bias forces [p0]; torques [tau]. *)
Variables (p0 : nat -> force) (a0 r : nat -> motion) (tau : list K) (o : id_opts).
Hypothesis NF : o_fric o = false.
Variables (acc : nat -> motion) (x : nat -> K).
Definition a1 (i : nat) : motion := match par ab i with None => r i | Some p => madd (a0 i) (mact (iso_inv (tpv ab i)) (acc p)) end.
Hypothesis ACC : forall i, (i < n)%nat -> acc i = madd (a1 i) (mscale (x i) (sub_at ab i)).
Variable f0 : arr force.
Hypothesis F0 : forall i, (i < n)%nat -> f0 i = fadd (imul (inertia_at ab i) (acc i)) (p0 i).
Definition law (i : nat) : Prop := x i = xv ab o tau p0 a0 i - mdot (a1 i) (hv ab i) / dv ab i.
Definition held (i : nat) : Prop := Fv ab f0 i = fadd (i6mul (IAv ab i) (acc i)) (pv ab o tau p0 a0 i).

Lemma xv_plain i : xv ab o tau p0 a0 i = (qk tau i - mdot (sub_at ab i) (pv ab o tau p0 a0 i)) / dv ab i.
Proof. unfold xv, aba_tau. rewrite NF. reflexivity. Qed.
(** What a child subtree passes to its parent. *)
Lemma child_passes i c : (c < n)%nat -> par ab c = Some i -> law c -> held c ->
  fact (tpv ab c) (Fv ab f0 c) =
  fadd (i6mul (i6act (tpv ab c) (yields (IAv ab c) (sub_at ab c))) (acc i))
       (fact (tpv ab c) (fadd (fadd (pv ab o tau p0 a0 c) (i6mul (yields (IAv ab c) (sub_at ab c)) (a0 c)))
                              (fscale (xv ab o tau p0 a0 c) (hv ab c)))).
Proof.
  intros Hc P Hx Hh. rewrite i6act_mul by (apply tpv_rigid; auto). rewrite <- fact_add. f_equal. rewrite Hh, (ACC c Hc), Hx.
  assert (A1 : a1 c = madd (a0 c) (mact (iso_inv (tpv ab c)) (acc i))) by (unfold a1; rewrite P; auto). rewrite A1.
  set (m := mact (iso_inv (tpv ab c)) (acc i)). clearbody m. clear A1 Hh Hx. pose proof (dv_neq c Hc) as D.
  unfold yields. rewrite !i6mul_sub_l, i6mul_add, i6mul_add, i6mul_scale. fold (hv ab c). change (mdot (sub_at ab c) (hv ab c)) with (dv ab c).
  rewrite !i6outer_mul by auto. rewrite mdot_add_l.
  generalize (i6mul (IAv ab c) (a0 c)) (i6mul (IAv ab c) m) (pv ab o tau p0 a0 c) (xv ab o tau p0 a0 c) (hv ab c) (mdot (a0 c) (hv ab c)) (mdot m (hv ab c)).
  intros A B p xx h d1 d2. destruct A as [[] []], B as [[] []], p as [[] []], h as [[] []].
  vunf. ext; field; auto.
Qed.
Lemma held_at i : (i < n)%nat -> (forall c, (i < c < n)%nat -> law c /\ held c) -> held i.
Proof.
  intros Hi IH. unfold held.
  assert (E1 : Fv ab f0 i = fold_right (fun c a => Fg ab c (Fv ab f0 c) a) (f0 i) (children ab i)) by (unfold Fv at 1; rewrite sval_eq by auto; reflexivity).
  assert (E2 : IAv ab i = fold_right (fun c a => i6add a (i6act (tpv ab c) (yields (IAv ab c) (sub_at ab c)))) (i6_of (inertia_at ab i)) (children ab i))
    by (unfold IAv at 1; rewrite sval_eq by auto; reflexivity).
  assert (E3 : pv ab o tau p0 a0 i = fold_right (fun c a => pg ab o tau a0 c (pv ab o tau p0 a0 c) a) (p0 i) (children ab i))
    by (unfold pv at 1; rewrite sval_eq by auto; reflexivity).
  rewrite E1, E2, E3.
  assert (G : forall l, (forall c, In c l -> In c (children ab i)) ->
    fold_right (fun c a => Fg ab c (Fv ab f0 c) a) (f0 i) l =
    fadd (i6mul (fold_right (fun c a => i6add a (i6act (tpv ab c) (yields (IAv ab c) (sub_at ab c)))) (i6_of (inertia_at ab i)) l) (acc i))
         (fold_right (fun c a => pg ab o tau a0 c (pv ab o tau p0 a0 c) a) (p0 i) l)).
  { induction l as [|c l IHl]; cbn [fold_right]; intros Hl.
    - rewrite i6_of_mul by (apply sym; auto). apply F0; auto.
    - unfold Fg at 1. rewrite IHl by (intros; apply Hl; right; auto). destruct (child_lt i c Hi) as [Hc P]; [apply Hl; left; auto|].
      destruct (IH c Hc) as [Hx Hh]. rewrite (child_passes i c) by (auto; lia). rewrite i6mul_add_l. unfold pg at 2. fold (xv ab o tau p0 a0 c).
      generalize (i6mul (fold_right (fun c a => i6add a (i6act (tpv ab c) (yields (IAv ab c) (sub_at ab c)))) (i6_of (inertia_at ab i)) l) (acc i)).
      generalize (fold_right (fun c a => pg ab o tau a0 c (pv ab o tau p0 a0 c) a) (p0 i) l).
      intros A B. rewrite !fadd_assoc. f_equal. rewrite <- !fadd_assoc. f_equal. apply fadd_comm. }
  apply G; auto.
Qed.
(** At each joint: the force transmitted along the axis is the torque exactly when
    the joint acceleration is the one the algorithm computes. *)
Lemma held_law i : (i < n)%nat -> held i -> (mdot (sub_at ab i) (Fv ab f0 i) = qk tau i <-> law i).
Proof.
  intros Hi Hh. unfold law. rewrite xv_plain, Hh. pose proof (dv_neq i Hi) as D.
  assert (E : mdot (sub_at ab i) (fadd (i6mul (IAv ab i) (acc i)) (pv ab o tau p0 a0 i)) =
     mdot (a1 i) (hv ab i) + x i * dv ab i + mdot (sub_at ab i) (pv ab o tau p0 a0 i)).
  { rewrite mdot_add_r, (ACC i Hi), i6mul_add, i6mul_scale, mdot_add_r, mdot_scale_r.
    rewrite (i6mul_sym (IAv ab i) (sub_at ab i) (a1 i)) by (apply IAv_sym; auto). reflexivity. }
  rewrite E. set (p := mdot (sub_at ab i) (pv ab o tau p0 a0 i)). set (a := mdot (a1 i) (hv ab i)). set (d := dv ab i) in *.
  split; intros H.
  - rewrite <- H. field; auto.
  - rewrite H. field; auto.
Qed.
Lemma laws_held : (forall i, (i < n)%nat -> law i) -> forall i, (i < n)%nat -> back ab f0 i = qk tau i.
Proof.
  intros Hx. assert (H : forall i, (i < n)%nat -> held i).
  { apply leaves_ind. intros i Hi IH. apply held_at; auto. intros c Hc. split; auto. apply Hx. lia. }
  intros i Hi. rewrite back_sval by auto. apply held_law; auto.
Qed.
Lemma held_laws : (forall i, (i < n)%nat -> back ab f0 i = qk tau i) -> forall i, (i < n)%nat -> law i.
Proof.
  intros Hb. assert (H : forall i, (i < n)%nat -> law i /\ held i).
  { apply leaves_ind. intros i Hi IH. assert (Hh : held i) by (apply held_at; auto). split; auto.
    apply held_law; auto. rewrite <- back_sval by auto. auto. }
  intros i Hi. apply H; auto.
Qed.
Lemma laws_unique : (forall i, (i < n)%nat -> law i) -> forall i, (i < n)%nat -> lastv ab o tau p0 a0 r i = (acc i, x i).
Proof.
  intros Hx i. induction i as [i IH] using lt_wf_ind. intros Hi.
  assert (E : lastv ab o tau p0 a0 r i = lastp ab o tau p0 a0 i (a1 i)).
  { unfold lastv. rewrite tval_eq by auto. unfold a1. destruct (par ab i) as [p|] eqn:P; auto. fold (lastv ab o tau p0 a0 r).
    pose proof (tree_par _ _ _ T Hi P). rewrite IH by lia. reflexivity. }
  rewrite E. unfold lastp. pose proof (Hx i Hi) as HX. unfold law in HX. rewrite <- HX. rewrite <- ACC by auto. reflexivity.
Qed.
End Motion.

(** The computed motion obeys the recursion. *)
Lemma lastv_law p0 a0 r tau o i : (i < n)%nat ->
  let acc := fun i => fst (lastv ab o tau p0 a0 r i) in let x := fun i => snd (lastv ab o tau p0 a0 r i) in
  acc i = madd (a1 a0 r acc i) (mscale (x i) (sub_at ab i)) /\ law p0 a0 r tau o acc x i.
Proof.
  intros Hi acc x.
  assert (E : lastv ab o tau p0 a0 r i = lastp ab o tau p0 a0 i (a1 a0 r acc i)).
  { unfold lastv. rewrite tval_eq by auto. unfold a1. destruct (par ab i) as [p|] eqn:P; auto. }
  unfold law. assert (E1 : acc i = fst (lastp ab o tau p0 a0 i (a1 a0 r acc i))) by (rewrite <- E; reflexivity). assert (E2 : x i = snd (lastp ab o tau p0 a0 i (a1 a0 r acc i))) by (rewrite <- E; reflexivity). split; [rewrite E1, E2|rewrite E2]; reflexivity.
Qed.

(** ** Against inverse dynamics *)
Variable fe : fmap.
Variable o : id_opts.
Hypothesis NF : o_fric o = false.
(** [gB]: gravity, as seen in the base frame. *)
Variable gB : motion.
Hypothesis GB : o_grav o = true -> mact (iso_inv (ab_Tbase ab)) (ab_g ab) = gB.
Hypothesis RB : o_grav o = true -> rigid (ab_Tbase ab).
Definition rB (i : nat) : motion := if o_grav o then mact (iso_inv (tpv ab i)) (mopp gB) else mzero.

Lemma vv_nocc i : o_cc o = false -> (i < n)%nat -> vv ab o i = mzero.
Proof.
  intros C. induction i as [i IH] using lt_wf_ind. intros Hi. rewrite vv_eq by auto. rewrite C. unfold vel_at.
  destruct (par ab i) as [p|] eqn:P; [|apply mscale_zero_l]. pose proof (tree_par _ _ _ T Hi P). rewrite IH by lia.
  rewrite mact_zero, mscale_zero_l, ?madd_zero_l. auto.
Qed.
Lemma velv_root i : (i < n)%nat -> par ab i = None -> velv ab i = mscale (qk (ab_dq ab) i) (sub_at ab i).
Proof. intros Hi P. rewrite velv_eq by auto. unfold vel_at. rewrite P. auto. Qed.
Lemma accv_acc ddq i : (i < n)%nat ->
  accv ab o ddq i = madd (a1 (biasa ab o) rB (accv ab o ddq) i) (mscale (qk ddq i) (sub_at ab i)).
Proof.
  intros Hi. rewrite accv_eq by auto. unfold a1, biasa, rB. destruct (par ab i) as [p|] eqn:P.
  - destruct (o_cc o) eqn:C.
    + unfold vv. rewrite C. rewrite madd_comm. f_equal. apply madd_comm.
    + rewrite vv_nocc by auto. rewrite mcross_zero_l, madd_zero_l. apply madd_comm.
  - assert (E : (if o_cc o then madd (if o_grav o then msub (mscale (qk ddq i) (sub_at ab i)) (mact (iso_inv (twv ab i)) (ab_g ab)) else mscale (qk ddq i) (sub_at ab i)) (mcross (velv ab i) (mscale (qk (ab_dq ab) i) (sub_at ab i)))
                 else (if o_grav o then msub (mscale (qk ddq i) (sub_at ab i)) (mact (iso_inv (twv ab i)) (ab_g ab)) else mscale (qk ddq i) (sub_at ab i))) =
                (if o_grav o then msub (mscale (qk ddq i) (sub_at ab i)) (mact (iso_inv (twv ab i)) (ab_g ab)) else mscale (qk ddq i) (sub_at ab i))).
    { destruct (o_cc o); auto. rewrite velv_root by auto. rewrite mcross_self, madd_zero_r. auto. }
    cbn zeta. rewrite E. destruct (o_grav o) eqn:G; [|symmetry; apply madd_zero_l].
    rewrite msub_opp, madd_comm. f_equal. rewrite <- mact_opp. rewrite <- GB by auto.
    assert (W : twv ab i = iso_mul (ab_Tbase ab) (tpv ab i)) by (unfold twv; rewrite tval_eq, P by auto; reflexivity).
    rewrite W, mact_inv_mul, mact_opp by (auto; apply tpv_rigid; auto). reflexivity.
Qed.
Lemma idf0_acc ddq i : (i < n)%nat -> idf0 ab o ddq fe i = fadd (imul (inertia_at ab i) (accv ab o ddq i)) (biasf ab o fe i).
Proof.
  intros Hi. unfold idf0, biasf. destruct (o_cc o) eqn:C.
  - unfold vv. rewrite C. cbn zeta. destruct (fe i) as [f|]; auto. rewrite !fsub_opp. symmetry. apply fadd_assoc.
  - rewrite vv_nocc by auto. rewrite fcross_zero_l. cbn zeta. destruct (fe i) as [f|]; [|symmetry; apply fadd_zero_r].
    rewrite !fsub_opp, fadd_zero_l. auto.
Qed.
Definition solves (tau : list K) (x : nat -> K) : Prop :=
  forall i, (i < n)%nat -> x i = snd (lastv ab o tau (biasf ab o fe) (biasa ab o) rB i).
Lemma aba_solves tau ddq : (forall i, (i < n)%nat -> qk ddq i = snd (lastv ab o tau (biasf ab o fe) (biasa ab o) rB i)) <->
  (forall i, (i < n)%nat -> back ab (idf0 ab o ddq fe) i = qk tau i).
Proof.
  split.
  - intros Hx.
    apply (laws_held (biasf ab o fe) (biasa ab o) rB tau o NF (accv ab o ddq) (qk ddq)).
    + apply accv_acc.
    + intros; apply idf0_acc; auto.
    + assert (EA : forall i, (i < n)%nat -> accv ab o ddq i = fst (lastv ab o tau (biasf ab o fe) (biasa ab o) rB i)).
      { induction i as [i IH] using lt_wf_ind. intros Hi. rewrite accv_acc by auto.
        destruct (lastv_law (biasf ab o fe) (biasa ab o) rB tau o i Hi) as [E _]. rewrite E. rewrite <- Hx by auto. f_equal.
        unfold a1. destruct (par ab i) as [p|] eqn:P; auto. pose proof (tree_par _ _ _ T Hi P). rewrite IH by lia. auto. }
      intros i Hi. destruct (lastv_law (biasf ab o fe) (biasa ab o) rB tau o i Hi) as [_ E]. unfold law in *.
      rewrite Hx by auto. rewrite E at 1. unfold a1. destruct (par ab i) as [p|] eqn:P; auto. pose proof (tree_par _ _ _ T Hi P). rewrite EA by lia. auto.
  - intros Hb i Hi.
    pose proof (laws_unique (biasf ab o fe) (biasa ab o) rB tau o (accv ab o ddq) (qk ddq) (accv_acc ddq)
      (held_laws (biasf ab o fe) (biasa ab o) rB tau o NF (accv ab o ddq) (qk ddq) (accv_acc ddq) (idf0 ab o ddq fe) (idf0_acc ddq) Hb) i Hi) as E.
    rewrite E. reflexivity.
Qed.
End Laws.
