(** What the operational-space articulated-body passes compute. *)
From Coq Require Import List Arith ZArith Bool Lia Ring Field.
From Verif Require Import Scalar Base Spatial SpecGeo Joint Body Kin InvDyn FwdDyn Opspace OpspaceAba Deriv Sim Ops Specs SpecCache SpecKin SpecDyn SpecAba SpatialTac SpatialProofs TreeProofs CacheProofs CacheOps BigSum KinProofs WorldProofs DynProofs AbaProofs AinvProofs AbaOps AbaLaws LoadProofs DynApi AbaCache AbaApi.
Import ListNotations.

Section OaValues.
Context {S : Scal} {L : ScalLaws S}.
Local Open Scope k_scope.
Add Field kf : (@kfield S L).
Variable pinv : list (list K) -> K -> list (list K) * bool.

Lemma div_opp a d : - a / d = (0 - a) / d.
Proof. rewrite !(Fdiv_def kfield). ring. Qed.
Lemma div_sub a b d : (a - b) / d = a / d - b / d.
Proof. rewrite !(Fdiv_def kfield). ring. Qed.
Lemma scaled_div u h d : Frc (v3scale u (v3div (flin h) d)) (v3scale u (v3div (fang h) d)) = fscale (u / d) h.
Proof. destruct h as [[] []]. unfold fscale, v3scale, v3div. cbn. rewrite !(Fdiv_def kfield). f_equal; f_equal; rewrite ?(Fdiv_def kfield); ring. Qed.

Section Robot.
Variable ab : body.
Hypothesis T : tree_ok ab.
Let n := ab_dof ab.
Definition o0 : id_opts := IdOpts false false false 0.
Definition oc : id_opts := IdOpts false true false 0.
Lemma biasa0 i : (i < n)%nat -> biasa ab o0 i = mzero.
Proof. intros Hi. unfold biasa. destruct (par ab i); auto. rewrite (vv_nocc ab T) by auto. apply mcross_zero_l. Qed.

(** Motion produced by bias forces [p0] alone, or with the velocity terms. *)
Definition mo (o : id_opts) (p0 : nat -> force) : nat -> motion * K := lastv ab o nil p0 (biasa ab o) (fun _ => mzero).
Definition pvo (o : id_opts) (p0 : nat -> force) : nat -> force := pv ab o nil p0 (biasa ab o).
Lemma qk_nil i : qk (@nil K) i = 0. Proof. unfold qk. destruct i; reflexivity. Qed.
Lemma xv0 p0 i : xv ab o0 nil p0 (biasa ab o0) i = (0 - mdot (sub_at ab i) (pvo o0 p0 i)) / dv ab i.
Proof. unfold xv, aba_tau. cbn [o0 o_fric]. rewrite qk_nil. reflexivity. Qed.

(** ** The unit forces *)
Definition push (l k i : nat) : force :=
  if Nat.eqb i l then fact (Iso (m3tr (rot (twv ab i))) v3zero) (fopp (unit_force k)) else fzero.
Lemma oa_fwd_p Tw abac l Ia p : (forall i, (i < n)%nat -> Tw i = twv ab i) ->
  forall i k, (i < n)%nat -> snd (for_up n (oa_fwd_step ab Tw abac l) (Ia, p)) i k = push l k i.
Proof.
  intros HW.
  pose proof (for_up_ind (fun m (s : arr i6 * arr2 force) => forall i k, (i < m)%nat -> snd s i k = push l k i) n (oa_fwd_step ab Tw abac l) (Ia, p)) as X.
  destruct (for_up n _ _) as [Ia' p']. apply X; [lia|].
  intros i [I1 p1] Hi Y j k Hj. cbn [snd] in *. unfold oa_fwd_step. cbn [snd]. destruct (Nat.eqb_spec j i) as [->|N].
  - unfold push. destruct (Nat.eqb i l); auto. rewrite HW by auto. auto.
  - apply Y. lia.
Qed.
Lemma oa_bwd_u Tp abac l Ia h d p u : (forall i, (i < n)%nat -> Tp i = tpv ab i) -> art_st ab abac n Ia h d ->
  (forall i k, (i < n)%nat -> p i k = push l k i) ->
  let '(Ia', h', d', (p', u')) := for_down n (oa_back_step ab Tp abac) (Ia, h, d, (p, u)) in
  art_all ab Ia' h' d' /\ forall i k, (i < n)%nat -> u' i k = 0 - mdot (sub_at ab i) (pvo o0 (push l k) i).
Proof.
  intros HP HI Hp. assert (HT : tp_ok ab Tp) by (intros i q Hi _; auto).
  pose proof (for_down_ind (fun m (s : arr i6 * arr force * arr K * (arr2 force * arr2 K)) => let '(Ia', h', d', (p', u')) := s in
     art_st ab abac m Ia' h' d' /\ (forall j k, (j < m)%nat -> p' j k = part ab (push l k) (pg ab o0 nil (biasa ab o0)) m j) /\
     (forall j k, (m <= j < n)%nat -> u' j k = 0 - mdot (sub_at ab j) (pvo o0 (push l k) j))) n (oa_back_step ab Tp abac) (Ia, h, d, (p, u))) as X.
  destruct (for_down n _ _) as [[[Ia' h'] d'] [p' u']]. cbn beta iota in X. destruct X as (X1 & _ & X3).
  - split; auto. split; [|lia]. intros j k Hj. unfold n; rewrite part_end. auto.
  - intros i [[[I1 h1] d1] [p1 u1]] Hi (Y1 & Y2 & Y3). unfold oa_back_step.
    pose proof (art_st_step ab T abac Tp i I1 h1 d1 HT Hi Y1) as Z. destruct (aba_inertia ab Tp abac i (I1, h1, d1)) as [[I2 h2] d2].
    destruct Z as [Z (E1 & E2 & E3)].
    assert (F : forall k, p1 i k = pvo o0 (push l k) i) by (intros k; rewrite Y2 by lia; apply part_all; auto).
    assert (U : forall k, mdot (mopp (sub_at ab i)) (p1 i k) = 0 - mdot (sub_at ab i) (pvo o0 (push l k) i)) by (intros k; rewrite mdot_opp_l, F; ring).
    split; [exact Z|]. split.
    + intros j k Hj. destruct (par ab i) as [q|] eqn:P.
      * destruct (Nat.eqb_spec j q) as [->|N].
        { rewrite (part_par ab (push l k) _ i q) by auto. unfold pg at 1. fold (pv ab o0 nil (push l k) (biasa ab o0)). fold (pvo o0 (push l k)).
          rewrite HP by auto. rewrite Y2 by (apply (tree_par _ _ _ T) in P; auto; lia). rewrite scaled_div, U, F, E2, E3.
          rewrite biasa0 by auto. rewrite i6mul_zero, fadd_zero_r. unfold aba_tau. cbn [o0 o_fric]. rewrite qk_nil. reflexivity. }
        { rewrite Y2 by lia. symmetry. apply part_other; auto. congruence. }
      * rewrite Y2 by lia. symmetry. apply part_other; auto. congruence.
    + intros j k Hj. destruct (Nat.eqb_spec j i) as [->|N]; [apply U|]. apply Y3. lia.
  - split; [apply (art_st_end ab abac); auto|]. intros i k Hi. apply X3. lia.
Qed.
Lemma oa_acc_val Tp h d u l k : (forall i, (i < n)%nat -> Tp i = tpv ab i) ->
  (forall i, (i < n)%nat -> h i = hv ab i /\ d i = dv ab i) ->
  (forall i, (i < n)%nat -> u i k = 0 - mdot (sub_at ab i) (pvo o0 (push l k) i)) ->
  forall i, (i < n)%nat -> oa_acc ab Tp h d u k (anc_at ab i) = fst (mo o0 (push l k) i).
Proof.
  intros HP HH HU. unfold oa_acc. induction i as [i IH] using lt_wf_ind. intros Hi. rewrite (tk_anc_at _ T i Hi).
  destruct (HH i Hi) as [E1 E2]. unfold mo, lastv. rewrite tval_eq by auto. fold (lastv ab o0 nil (push l k) (biasa ab o0) (fun _ => mzero)). fold (mo o0 (push l k)).
  destruct (par ab i) as [p|] eqn:P.
  - pose proof (tree_par _ _ _ T Hi P). rewrite fold_left_app, IH by lia. cbn [fold_left].
    rewrite biasa0, madd_zero_l by auto. rewrite HP, E1, E2, HU by auto. unfold lastp. cbn [fst]. rewrite xv0, div_sub. reflexivity.
  - cbn [fold_left]. rewrite mact_zero, HU, E1, E2 by auto. unfold lastp. cbn [fst]. rewrite xv0, div_sub. reflexivity.
Qed.
Definition linv_aba (l : nat) : lmat := mat 6 6 (fun i k => qk (m6 (mact (Iso (rot (twv ab l)) v3zero) (fst (mo o0 (push l k) l)))) i).

(** ** The backward pass of the other two *)
Lemma occ_back_aba Tp abac (acc : bool) a i st : occ_back_step ab Tp abac acc a i st = aba_back_step ab Tp abac oc nil (if acc then a else fun _ => mzero) i st.
Proof.
  destruct st as [[[[Ia h] d] f] x]. unfold occ_back_step, aba_back_step. destruct (aba_inertia ab Tp abac i (Ia, h, d)) as [[I2 h2] d2].
  unfold aba_tau. cbn [oc o_fric]. rewrite qk_nil, div_opp. destruct (par ab i) as [p|]; [|reflexivity]. destruct acc; [reflexivity|].
  rewrite i6mul_zero, fadd_zero_r. reflexivity.
Qed.
Lemma for_down_ext {A} (f g : nat -> A -> A) : forall m s, (forall i s, (i < m)%nat -> f i s = g i s) -> for_down m f s = for_down m g s.
Proof. induction m as [|m IH]; cbn; intros s H; auto. rewrite H by lia. apply IH. intros; apply H; lia. Qed.
Lemma occ_bwd Tp abac (acc : bool) a0 p0 Ia h d f x a : tp_ok ab Tp -> (forall i, (i < n)%nat -> f i = p0 i /\ (if acc then a else fun _ => mzero) i = a0 i) ->
  art_st ab abac n Ia h d ->
  let '(Ia', h', d', f', x') := for_down n (occ_back_step ab Tp abac acc a) (Ia, h, d, f, x) in
  art_all ab Ia' h' d' /\ forall i, (i < n)%nat -> x' i = xv ab oc nil p0 a0 i.
Proof.
  intros HT Hf HI. rewrite (for_down_ext _ (aba_back_step ab Tp abac oc nil (if acc then a else fun _ => mzero))) by (intros; apply occ_back_aba).
  apply aba_bwd; auto.
Qed.
Lemma occ_last_val Tp (acc : bool) ra h d x p0 a0 : tp_ok ab Tp ->
  (forall i, (i < n)%nat -> h i = hv ab i /\ d i = dv ab i /\ x i = xv ab oc nil p0 a0 i /\ (if acc then ra else fun _ => mzero) i = a0 i) ->
  forall i, (i < n)%nat -> occ_last ab Tp acc ra h d x (anc_at ab i) = fst (lastv ab oc nil p0 a0 (fun _ => mzero) i).
Proof.
  intros HT HH. unfold occ_last. induction i as [i IH] using lt_wf_ind. intros Hi. rewrite (tk_anc_at _ T i Hi).
  destruct (HH i Hi) as (E1 & E2 & E3 & E4). unfold lastv. rewrite tval_eq by auto. fold (lastv ab oc nil p0 a0 (fun _ => mzero)).
  destruct (par ab i) as [p|] eqn:P.
  - pose proof (tree_par _ _ _ T Hi P). rewrite fold_left_app, IH by lia. cbn [fold_left]. rewrite P, (HT i p), E1, E2, E3 by auto.
    assert (X : (if acc then madd (mact (iso_inv (tpv ab i)) (fst (lastv ab oc nil p0 a0 (fun _ => mzero) p))) (ra i) else mact (iso_inv (tpv ab i)) (fst (lastv ab oc nil p0 a0 (fun _ => mzero) p))) =
       madd (a0 i) (mact (iso_inv (tpv ab i)) (fst (lastv ab oc nil p0 a0 (fun _ => mzero) p)))).
    { rewrite <- E4. destruct acc; [apply madd_comm|]. symmetry. apply madd_zero_l. }
    rewrite X. reflexivity.
  - cbn [fold_left]. rewrite P, E1, E2, E3. reflexivity.
Qed.
(** ** Values of the four functions *)
Hypothesis NL : noload ab.
Definition oai (d : opspace_aba_data) : Prop :=
  (is_oa_linv d = true -> oa_Linv d = linv_aba (oa_link d)) /\
  (is_oa_lambda d = true -> is_oa_linv d = true /\ oa_Lambda d = fst (pinv (linv_aba (oa_link d)) (oa_eps d))).
Lemma tw_all c : inv ab c -> forall i, (i < n)%nat -> c_Tw (ca_T (ensure_Tp ab (ensure_Tw ab c))) i = twv ab i.
Proof. intros V i Hi. rewrite ensure_Tp_Tw. apply ensure_Tw_at; auto. Qed.
Lemma oa_linv_val l off c : (l < n)%nat -> inv ab c -> aba_ok ab c -> oai (ca_oa c) ->
  let c' := oa_inertia_inverse ab l off c in
  oai (ca_oa c') /\ is_oa_linv (ca_oa c') = true /\ oa_link (ca_oa c') = l /\ oa_Linv (ca_oa c') = linv_aba l.
Proof.
  intros Hl V A O. cbn zeta. unfold oa_inertia_inverse. destruct (is_oa_linv (ca_oa c) && Nat.eqb (oa_link (ca_oa c)) l && v3eqb (oa_offset (ca_oa c)) off) eqn:Q.
  { apply andb_true_iff in Q. destruct Q as [Q _]. apply andb_true_iff in Q. destruct Q as [Q1 Q2]. apply Nat.eqb_eq in Q2.
    split; auto. split; auto. split; auto. rewrite (proj1 O Q1), Q2. auto. }
  fold n. set (c1 := ensure_Tp ab (ensure_Tw ab c)).
  assert (V0 : inv ab (ensure_Tw ab c)) by (apply ensure_Tw_inv; auto).
  assert (HP : forall i, (i < n)%nat -> c_Tp (ca_T c1) i = tpv ab i) by (intros i Hi; apply ensure_Tp_at; auto).
  assert (HW : forall i, (i < n)%nat -> c_Tw (ca_T c1) i = twv ab i) by (apply tw_all; auto).
  assert (E1 : ca_aba c1 = ca_aba c) by (unfold c1; rewrite aba_Tp, aba_Tw; auto).
  pose proof (oa_fwd_Ia ab NL (c_Tw (ca_T c1)) (is_aba (ca_aba c1)) l n (c_Ia (ca_aba c1)) (oa_p (ca_oa c))) as X.
  pose proof (oa_fwd_p (c_Tw (ca_T c1)) (is_aba (ca_aba c1)) l (c_Ia (ca_aba c1)) (oa_p (ca_oa c)) HW) as XP.
  destruct (for_up n _ _) as [Ia p]. cbn [snd] in XP.
  assert (ST : art_st ab (is_aba (ca_aba c1)) n Ia (c_h (ca_aba c1)) (c_d (ca_aba c1))).
  { eapply art_start_or; [exact X|]. rewrite E1. apply A. }
  pose proof (oa_bwd_u (c_Tp (ca_T c1)) (is_aba (ca_aba c1)) l Ia (c_h (ca_aba c1)) (c_d (ca_aba c1)) p (oa_u (ca_oa c)) HP ST XP) as Y.
  destruct (for_down n _ _) as [[[Ia' h] d] [p' u]]. destruct Y as [Y1 Y2]. cbn.
  assert (E : mat 6 6 (fun i k => qk (m6 (mact (Iso (rot (c_Tw (ca_T c1) l)) v3zero) (oa_acc ab (c_Tp (ca_T c1)) h d u k (anc_at ab l)))) i) = linv_aba l).
  { apply mat_ext. intros i k Hi Hk. rewrite HW by auto. rewrite (oa_acc_val (c_Tp (ca_T c1)) h d u l k HP); auto.
    intros j Hj. destruct (Y1 j Hj) as (_ & ? & ?). auto. }
  split; [|auto]. split; cbn; auto. discriminate.
Qed.
Context {ES : EqSound S}.
Lemma oa_lam_val l off eps c : (l < n)%nat -> inv ab c -> aba_ok ab c -> oai (ca_oa c) ->
  let c' := oa_inertia pinv ab l off eps c in
  oai (ca_oa c') /\ oa_Lambda (ca_oa c') = fst (pinv (linv_aba l) eps).
Proof.
  intros Hl V A O. cbn zeta. unfold oa_inertia. destruct (is_oa_lambda (ca_oa c) && Nat.eqb (oa_link (ca_oa c)) l && v3eqb (oa_offset (ca_oa c)) off && keq (oa_eps (ca_oa c)) eps) eqn:Q.
  { apply andb_true_iff in Q. destruct Q as [Q Q3]. apply andb_true_iff in Q. destruct Q as [Q _]. apply andb_true_iff in Q. destruct Q as [Q1 Q2].
    apply Nat.eqb_eq in Q2. apply keq_sound in Q3. split; auto. destruct (proj2 O Q1) as [_ E]. rewrite E, Q2, Q3. auto. }
  destruct (oa_linv_val l off c Hl V A O) as (O1 & F1 & L1 & E1). set (c1 := oa_inertia_inverse ab l off c) in *. clearbody c1. cbn.
  rewrite E1. split; [|auto]. split; cbn; rewrite ?L1, ?E1; auto.
Qed.

(** opspace::CentrifugalCoriolisAba *)
Lemma occ_fwd_val Tp velc abac v a Ia f : tp_ok ab Tp -> (velc = true -> forall i, (i < n)%nat -> v i = velv ab i) ->
  let '(v', a', Ia', f') := for_up n (occ_fwd_step ab Tp velc abac) (v, a, Ia, f) in
  forall i, (i < n)%nat -> f' i = biasf ab oc (fun _ => None) i /\ a' i = biasa ab oc i.
Proof.
  intros HT Hv.
  pose proof (for_up_ind (fun m (s : arr motion * arr motion * arr i6 * arr force) => let '(v', a', Ia', f') := s in
     (velc = true -> v' = v) /\ forall i, (i < m)%nat -> v' i = velv ab i /\ f' i = biasf ab oc (fun _ => None) i /\ a' i = biasa ab oc i) n
     (occ_fwd_step ab Tp velc abac) (v, a, Ia, f)) as X.
  destruct (for_up n _ _) as [[[v' a'] Ia'] f']. cbn beta iota in X. destruct X as (_ & X).
  - split; auto. lia.
  - intros i [[[v1 a1] I1] f1] Hi (Y0 & Y). unfold occ_fwd_step.
    set (v2 := if velc then v1 else _).
    assert (V2 : forall j, (j <= i)%nat -> v2 j = velv ab j).
    { intros j Hj. unfold v2. destruct velc; [rewrite Y0 by auto; apply Hv; auto; lia|]. apply upd_lt with (b := velv ab); [intros; apply Y; lia| |lia].
      rewrite velv_eq by auto. unfold vel_at. destruct (par ab i) as [p|] eqn:P; auto. rewrite (HT i p) by auto.
      destruct (Y p) as (-> & _); [apply (tree_par _ _ _ T); auto|]. apply madd_comm. }
    split; [intros E; unfold v2; rewrite E; auto|].
    intros j Hj. split; [apply V2; lia|]. split.
    + apply upd_lt with (b := biasf ab oc (fun _ => None)); [intros; apply Y; lia| |lia]. unfold biasf, vv. cbn [oc o_cc]. rewrite V2 by lia. rewrite noload_at; auto.
    + apply upd_lt with (b := biasa ab oc); [intros; apply Y; lia| |lia]. unfold biasa, vv. cbn [oc o_cc]. rewrite V2 by lia. reflexivity.
  - intros i Hi. apply X. auto.
Qed.
Definition cc_acc (l : nat) : motion := mact (Iso (rot (twv ab l)) v3zero) (fst (mo oc (biasf ab oc (fun _ => None)) l)).
Lemma oa_cc_val l off eps c : (l < n)%nat -> inv ab c -> aba_ok ab c -> oai (ca_oa c) ->
  oai (ca_oa (fst (oa_cc pinv ab l off eps c))) /\
  snd (oa_cc pinv ab l off eps c) = lmulv 6 6 (fst (pinv (linv_aba l) eps)) (map kopp (m6 (cc_acc l))).
Proof.
  intros Hl V A O. assert (AC : forall x y : K, x + y = y + x) by (intros; ring). unfold oa_cc. fold n. set (c1 := ensure_Tp ab c).
  assert (V1 : inv ab c1) by (apply ensure_Tp_inv; auto).
  assert (E1 : ca_aba c1 = ca_aba c) by apply aba_Tp.
  assert (O1 : ca_oa c1 = ca_oa c) by (unfold c1; destruct (sr_Tp ab c) as [t ->]; reflexivity).
  assert (HT : tp_ok ab (c_Tp (ca_T c1))) by (apply tp_ok_Tp; auto).
  pose proof (occ_fwd_vel ab T AC (c_Tp (ca_T c1)) (is_vel (ca_vel c1)) (is_aba (ca_aba c1)) (c_v (ca_vel c1)) (c_a (ca_rnea c1)) (c_Ia (ca_aba c1)) (c_f (ca_rnea c1)) HT (i_vel _ _ V1)) as XV.
  pose proof (occ_fwd_Ia ab NL (c_Tp (ca_T c1)) (is_vel (ca_vel c1)) (is_aba (ca_aba c1)) n (c_v (ca_vel c1)) (c_a (ca_rnea c1)) (c_Ia (ca_aba c1)) (c_f (ca_rnea c1))) as X.
  pose proof (occ_fwd_val (c_Tp (ca_T c1)) (is_vel (ca_vel c1)) (is_aba (ca_aba c1)) (c_v (ca_vel c1)) (c_a (ca_rnea c1)) (c_Ia (ca_aba c1)) (c_f (ca_rnea c1)) HT (i_vel _ _ V1)) as XF.
  fold n in XV. destruct (for_up n _ _) as [[[v a] Ia] f].
  assert (ST : art_st ab (is_aba (ca_aba c1)) n Ia (c_h (ca_aba c1)) (c_d (ca_aba c1))).
  { eapply art_start_or; [exact X|]. rewrite E1. apply A. }
  pose proof (occ_bwd (c_Tp (ca_T c1)) (is_aba (ca_aba c1)) true (biasa ab oc) (biasf ab oc (fun _ => None)) Ia (c_h (ca_aba c1)) (c_d (ca_aba c1)) f (fun _ => 0) a HT XF ST) as Y.
  destruct (for_down n _ _) as [[[[Ia' h] d] f'] x]. destruct Y as [Y1 Y2]. cbn [fst snd].
  set (c2 := with_aba _ _).
  assert (A2 : aba_ok ab c2) by (eapply (aba_ok_put ab c1); [|reflexivity|exact Y1]; eapply aba_ok_same; eauto).
  assert (V2 : inv ab c2) by (apply inv_aba, inv_rnea, inv_vel; auto).
  assert (V3 : inv ab (ensure_Tw ab c2)) by (apply ensure_Tw_inv; auto).
  assert (A3 : aba_ok ab (ensure_Tw ab c2)) by (eapply aba_ok_same; [apply aba_Tw|auto]).
  assert (O3 : oai (ca_oa (ensure_Tw ab c2))) by (destruct (sr_Tw ab c2) as [t ->]; cbn; fold c1; rewrite O1; exact O).
  destruct (oa_lam_val l off eps (ensure_Tw ab c2) Hl V3 A3 O3) as [B1 B2]. split; [exact B1|]. rewrite B2. f_equal. f_equal. f_equal.
  unfold cc_acc. rewrite (ensure_Tw_at ab T c2 l V2 Hl). f_equal.
  apply (occ_last_val (c_Tp (ca_T c1)) true a h d x (biasf ab oc (fun _ => None)) (biasa ab oc) HT); auto.
  intros i Hi. destruct (Y1 i Hi) as (_ & ? & ?). destruct (XF i Hi). auto.
Qed.

(** opspace::GravityAba without cached articulated inertias *)
Definition gravp (fe : fmap) (i : nat) : force :=
  let fi := i6mul (i6_of (inertia_at ab i)) (mact (iso_inv (twv ab i)) (ab_g ab)) in
  match fe i with None => fi | Some x => fsub fi (fact (iso_inv (twv ab i)) x) end.
Lemma og_fwd_val Tw fe Ia f : (forall i, (i < n)%nat -> Tw i = twv ab i) ->
  forall i, (i < n)%nat -> snd (for_up n (og_fwd_step ab Tw false fe) (Ia, f)) i = gravp fe i.
Proof.
  intros HW.
  pose proof (for_up_ind (fun m (s : arr i6 * arr force) => forall i, (i < m)%nat -> snd s i = gravp fe i) n (og_fwd_step ab Tw false fe) (Ia, f)) as X.
  destruct (for_up n _ _) as [Ia' f']. cbn [snd] in *. apply X; [lia|].
  intros i [I1 f1] Hi Y j Hj. cbn [snd] in *. unfold og_fwd_step. cbn [snd]. apply upd_lt with (b := gravp fe); [intros; apply Y; lia| |lia].
  rewrite upd_same. unfold gravp. rewrite noload_at, HW by auto. reflexivity.
Qed.
Definition grav_acc (fe : fmap) (l : nat) : motion := mact (Iso (rot (twv ab l)) v3zero) (fst (lastv ab oc nil (gravp fe) (fun _ => mzero) (fun _ => mzero) l)).
Lemma oa_gravity_val l off fe eps c : (l < n)%nat -> inv ab c -> aba_ok ab c -> oai (ca_oa c) ->
  oai (ca_oa (fst (oa_gravity pinv ab l off fe eps c))) /\
  (is_aba (ca_aba c) = false -> snd (oa_gravity pinv ab l off fe eps c) = lmulv 6 6 (fst (pinv (linv_aba l) eps)) (m6 (grav_acc fe l))).
Proof.
  intros Hl V A O. unfold oa_gravity. fold n. set (c1 := ensure_Tp ab (ensure_Tw ab c)).
  assert (V0 : inv ab (ensure_Tw ab c)) by (apply ensure_Tw_inv; auto).
  assert (V1 : inv ab c1) by (apply ensure_Tp_inv; auto).
  assert (E1 : ca_aba c1 = ca_aba c) by (unfold c1; rewrite aba_Tp, aba_Tw; auto).
  assert (O1 : ca_oa c1 = ca_oa c) by (unfold c1; destruct (sr_Tp ab (ensure_Tw ab c)) as [t ->]; destruct (sr_Tw ab c) as [t' ->]; reflexivity).
  assert (HT : tp_ok ab (c_Tp (ca_T c1))) by (apply tp_ok_Tp; auto).
  assert (HW : forall i, (i < n)%nat -> c_Tw (ca_T c1) i = twv ab i) by (apply tw_all; auto).
  pose proof (og_fwd_Ia ab NL (c_Tw (ca_T c1)) (is_aba (ca_aba c1)) fe n (c_Ia (ca_aba c1)) (c_f (ca_rnea c1))) as X.
  assert (XF : is_aba (ca_aba c) = false -> forall i, (i < n)%nat -> snd (for_up n (og_fwd_step ab (c_Tw (ca_T c1)) (is_aba (ca_aba c1)) fe) (c_Ia (ca_aba c1), c_f (ca_rnea c1))) i = gravp fe i).
  { intros F. rewrite E1, F. apply og_fwd_val; auto. }
  destruct (for_up n _ _) as [Ia f]. cbn [snd] in XF.
  assert (ST : art_st ab (is_aba (ca_aba c1)) n Ia (c_h (ca_aba c1)) (c_d (ca_aba c1))).
  { eapply art_start_or; [exact X|]. rewrite E1. apply A. }
  pose proof (occ_bwd (c_Tp (ca_T c1)) (is_aba (ca_aba c1)) false (fun _ => mzero) f Ia (c_h (ca_aba c1)) (c_d (ca_aba c1)) f (fun _ => 0) (c_a (ca_rnea c1)) HT ltac:(auto) ST) as Y.
  assert (Y' : is_aba (ca_aba c) = false -> let '(Ia', h', d', f', x') := for_down n (occ_back_step ab (c_Tp (ca_T c1)) (is_aba (ca_aba c1)) false (c_a (ca_rnea c1))) (Ia, c_h (ca_aba c1), c_d (ca_aba c1), f, fun _ => 0) in
     art_all ab Ia' h' d' /\ forall i, (i < n)%nat -> x' i = xv ab oc nil (gravp fe) (fun _ => mzero) i).
  { intros F. apply occ_bwd; auto. }
  destruct (for_down n _ _) as [[[[Ia' h] d] f'] x]. destruct Y as [Y1 _]. cbn [fst snd].
  set (c2 := with_aba _ _).
  assert (A2 : aba_ok ab c2) by (eapply (aba_ok_put ab c1); [|reflexivity|exact Y1]; eapply aba_ok_same; eauto).
  assert (V2 : inv ab c2) by (apply inv_aba, inv_rnea; auto).
  assert (O2 : oai (ca_oa c2)) by (cbn; fold c1; rewrite O1; exact O).
  destruct (oa_lam_val l off eps c2 Hl V2 A2 O2) as [B1 B2]. split; [exact B1|]. intros F. rewrite B2. f_equal. f_equal.
  unfold grav_acc. rewrite HW by auto. f_equal.
  apply (occ_last_val (c_Tp (ca_T c1)) false (c_a (ca_rnea c2)) h d x (gravp fe) (fun _ => mzero) HT); auto.
  intros i Hi. destruct (Y1 i Hi) as (_ & ? & ?). destruct (Y' F). auto.
Qed.
End Robot.
End OaValues.
