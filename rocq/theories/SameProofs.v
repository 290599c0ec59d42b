(** Proofs of C61: renumbered links, moved base, scaled masses and velocities. *)
From Coq Require Import List Arith ZArith Bool Lia Ring Field Permutation.
From Verif Require Import Scalar Base Spatial SpecGeo Joint Body Kin InvDyn FwdDyn Opspace OpspaceAba Deriv Sim Ops Specs SpecCache SpecKin SpecDyn SpecAba SpecSame SpatialProofs TreeProofs CacheProofs CacheOps JointProofs BigSum KinProofs WorldProofs DynProofs DynApi AbaApi VelProofs SpatialTac.
Import ListNotations.

(** ** Renumberings of [0 .. n-1] *)
Section Perm.
Variables (n : nat) (s : nat -> nat).
Hypothesis range : forall k, k < n -> s k < n.
Hypothesis distinct : forall j k, j < n -> k < n -> s j = s k -> j = k.
Lemma renum_perm : Permutation (map s (seq 0 n)) (seq 0 n).
Proof.
  apply NoDup_Permutation_bis.
  - assert (H : forall l, (forall x, In x l -> x < n) -> NoDup l -> NoDup (map s l)).
    { induction l as [|x l IH]; intros B ND; cbn; constructor; inversion ND; subst.
      - intros C. apply in_map_iff in C. destruct C as (y & E & Hy). apply distinct in E; [subst; auto|apply B; right; auto|apply B; left; auto].
      - apply IH; auto. intros y Hy. apply B. right; auto. }
    apply H; [|apply seq_NoDup]. intros x Hx. apply in_seq in Hx. lia.
  - rewrite map_length. auto.
  - intros x Hx. apply in_map_iff in Hx. destruct Hx as (k & <- & Hk). apply in_seq in Hk. apply in_seq. specialize (range k). lia.
Qed.
Lemma renum_onto i : i < n -> exists k, k < n /\ s k = i.
Proof.
  intros Hi. assert (H : In i (map s (seq 0 n))) by (apply (Permutation_in _ (Permutation_sym renum_perm)), in_seq; lia).
  apply in_map_iff in H. destruct H as (k & E & Hk). apply in_seq in Hk. exists k. split; [lia|auto].
Qed.
(** the inverse *)
Definition back_to (i : nat) : nat := match find (fun k => Nat.eqb (s k) i) (seq 0 n) with Some k => k | None => 0 end.
Lemma back_to_ok k : k < n -> back_to (s k) = k.
Proof.
  intros Hk. unfold back_to. destruct (find _ _) as [j|] eqn:E.
  - apply find_some in E. destruct E as [Hj E]. apply in_seq in Hj. apply Nat.eqb_eq in E. apply distinct; auto; lia.
  - pose proof (find_none _ _ E k ltac:(apply in_seq; lia)) as C. cbn in C. rewrite Nat.eqb_refl in C. discriminate C.
Qed.
End Perm.

Section Same.
Context {S : Scal} {L : ScalLaws S} {PL : PosLaws S}.
Add Field kf61 : (@kfield S L).
Local Open Scope k_scope.

Lemma total_perm l m : Permutation l m -> total l = total m.
Proof.
  unfold total. induction 1 as [|x l m H IH|x y l|l m k H1 IH1 H2 IH2]; cbn [fold_right]; [auto|rewrite IH; auto| |congruence].
  generalize (fold_right kadd 0 l). intros. ring.
Qed.
Lemma ksum_renum n s f : (forall k, (k < n)%nat -> (s k < n)%nat) -> (forall j k, (j < n)%nat -> (k < n)%nat -> s j = s k -> j = k) ->
  ksum n f = ksum n (fun k => f (s k)).
Proof.
  intros R D. rewrite <- !total_ksum. rewrite <- (map_map s f). apply total_perm. apply Permutation_map, Permutation_sym, renum_perm; auto.
Qed.
Lemma force_ext (f g : force) : (forall m, mdot m f = mdot m g) -> f = g.
Proof.
  intros H. destruct f as [[a b c] [d e f]], g as [[a' b' c'] [d' e' f']].
  pose proof (H (Mot (V3 1 0 0) v3zero)) as H1. pose proof (H (Mot (V3 0 1 0) v3zero)) as H2. pose proof (H (Mot (V3 0 0 1) v3zero)) as H3.
  pose proof (H (Mot v3zero (V3 1 0 0))) as H4. pose proof (H (Mot v3zero (V3 0 1 0))) as H5. pose proof (H (Mot v3zero (V3 0 0 1))) as H6.
  unfold mdot, v3dot in *. cbn in *.
  assert (X : forall x y z u v w : K, 1 * x + 0 * y + 0 * z + (0 * u + 0 * v + 0 * w) = x) by (intros; ring).
  f_equal; f_equal.
  - transitivity (1 * a + 0 * b + 0 * c + (0 * d + 0 * e + 0 * f)); [ring|]. rewrite H1. ring.
  - transitivity (0 * a + 1 * b + 0 * c + (0 * d + 0 * e + 0 * f)); [ring|]. rewrite H2. ring.
  - transitivity (0 * a + 0 * b + 1 * c + (0 * d + 0 * e + 0 * f)); [ring|]. rewrite H3. ring.
  - transitivity (0 * a + 0 * b + 0 * c + (1 * d + 0 * e + 0 * f)); [ring|]. rewrite H4. ring.
  - transitivity (0 * a + 0 * b + 0 * c + (0 * d + 1 * e + 0 * f)); [ring|]. rewrite H5. ring.
  - transitivity (0 * a + 0 * b + 0 * c + (0 * d + 0 * e + 1 * f)); [ring|]. rewrite H6. ring.
Qed.
Lemma imul_times c B x : imul (times c B) x = fscale c (imul B x).
Proof. unfold times. vring. Qed.

Lemma fscale_mul j k f : fscale j (fscale k f) = fscale (j * k) f.
Proof. vring. Qed.
Lemma grav_act z X g g' : mang g = v3zero -> mang g' = v3zero -> mlin g' = v3scale z (m3mulv (rot X) (mlin g)) -> g' = mscale z (mact X g).
Proof. destruct g, g'. cbn. intros -> -> ->. vring. Qed.
Lemma mopp_scale z m : mopp (mscale z m) = mscale z (mopp m).
Proof. vring. Qed.
Lemma fopp_scale z m : fopp (fscale z m) = fscale z (fopp m).
Proof. vring. Qed.
Lemma fscale_fzero z : fscale z fzero = fzero.
Proof. vring. Qed.
Lemma turned_zero X : turned X mzero = mzero.
Proof. unfold turned. vring. Qed.
Lemma v3_move R (t p q : v3) : v3sub (v3add (m3mulv R t) p) (v3add (m3mulv R q) p) = m3mulv R (v3sub t q).
Proof. vring. Qed.
Lemma m3mulv_sub R u v : m3mulv R (v3sub u v) = v3sub (m3mulv R u) (m3mulv R v).
Proof. vring. Qed.
Lemma jac_turn X T p m : rigid X -> mact (Iso (rot (iso_mul X T)) (v3sub (tra (iso_mul X T)) (iso_app X p))) m = turned X (mact (Iso (rot T) (v3sub (tra T) p)) m).
Proof.
  intros RX. unfold turned, mact, iso_app. cbn [rot tra mlin mang iso_mul]. rewrite !m3mulv_mul, v3_move. rewrite rot_cross by exact RX. rewrite m3mulv_sub. auto.
Qed.

Variables (s : nat -> nat) (X : iso) (c w : K) (a b : body).
Hypothesis M : same_machine s X c w a b.
Hypothesis RX : rigid X.
Hypothesis Ta : tree_ok a.
Hypothesis Tb : tree_ok b.
Hypothesis Pa : proper a.
Hypothesis Pb : proper b.
Let n := ab_dof a.
Let Ra := pr_rigid _ Pa.
Let Rb := pr_rigid _ Pb.

Lemma sm_lt k : (k < n)%nat -> (s k < ab_dof b)%nat.
Proof. intros H. rewrite (sm_dof _ _ _ _ _ _ M). apply (sm_range _ _ _ _ _ _ M); auto. Qed.
Hint Resolve sm_lt : core.
Lemma sm_par k : (k < n)%nat -> par b (s k) = option_map s (par a k).
Proof.
  intros H. unfold par, rb_at. rewrite (sm_parent _ _ _ _ _ _ M k H).
  destruct (rb_parent (nth k (ab_rbs a) rb_default) <? 0)%Z eqn:E; [rewrite E; auto|].
  destruct (Z.ltb_spec (Z.of_nat (s (Z.to_nat (rb_parent (nth k (ab_rbs a) rb_default))))) 0); [lia|]. rewrite Nat2Z.id. auto.
Qed.
Lemma sm_sub k : (k < n)%nat -> sub_at b (s k) = sub_at a k.
Proof. intros H. unfold sub_at, rb_at. rewrite (sm_joint _ _ _ _ _ _ M k H). auto. Qed.
Lemma sm_tpv k : (k < n)%nat -> tpv b (s k) = tpv a k.
Proof.
  intros H. unfold tpv, T_par_q, rb_at. rewrite (sm_joint _ _ _ _ _ _ M k H), (sm_frame _ _ _ _ _ _ M k H).
  change (qk (ab_q b) (s k)) with (coef (ab_q b) (s k)). rewrite (sm_q _ _ _ _ _ _ M k H). auto.
Qed.
Lemma sm_twv k : (k < n)%nat -> twv b (s k) = iso_mul X (twv a k).
Proof.
  induction k as [k IH] using lt_wf_ind. intros H. rewrite (twv_eq a k), (twv_eq b (s k)), sm_par, sm_tpv by auto.
  destruct (par a k) as [p|] eqn:E; cbn [option_map].
  - pose proof (tree_par _ _ _ Ta H E). rewrite IH by lia. apply iso_mul_assoc.
  - rewrite (sm_base _ _ _ _ _ _ M). apply iso_mul_assoc.
Qed.
Lemma sm_ancb i k : (i < n)%nat -> (k < n)%nat -> ancb b (s i) (s k) = ancb a i k.
Proof.
  intros Hi. induction k as [k IH] using lt_wf_ind. intros H. rewrite (ancb_step a Ta i k), (ancb_step b Tb (s i) (s k)), sm_par by auto.
  assert (E : Nat.eqb (s i) (s k) = Nat.eqb i k).
  { destruct (Nat.eqb_spec i k); [subst; apply Nat.eqb_refl|]. apply Nat.eqb_neq. intros C. apply (sm_distinct _ _ _ _ _ _ M) in C; auto. }
  rewrite E. destruct (par a k) as [p|] eqn:P; cbn [option_map]; auto. pose proof (tree_par _ _ _ Ta H P). rewrite IH by lia. auto.
Qed.
Lemma sm_inertia k x : (k < n)%nat -> imul (inertia_at b (s k)) x = fscale c (imul (inertia_at a k) x).
Proof.
  intros H. pose proof (kpos_neq _ (proper_mass a Pa k H)) as Na. pose proof (kpos_neq _ (proper_mass b Pb (s k) (sm_lt k H))) as Nb. revert Na Nb. unfold inertia_at, rb_at.
  rewrite (sm_load _ _ _ _ _ _ M k H), (sm_mass _ _ _ _ _ _ M k H). destruct (ab_loads a (Z.of_nat k)) as [J|]; cbn [option_map].
  - intros Na Nb. rewrite !iadd_mul by auto. rewrite !imul_times, fscale_add_r. auto.
  - intros _ _. apply imul_times.
Qed.
Lemma sm_velv k : (k < n)%nat -> velv b (s k) = mscale w (velv a k).
Proof.
  induction k as [k IH] using lt_wf_ind. intros H. rewrite (velv_eq a Ta), (velv_eq b Tb) by auto. unfold vel_at. rewrite sm_par, sm_tpv, sm_sub by auto.
  change (qk (ab_dq b) (s k)) with (coef (ab_dq b) (s k)). rewrite (sm_dq _ _ _ _ _ _ M k H), <- mscale_mul. change (coef (ab_dq a) k) with (qk (ab_dq a) k).
  destruct (par a k) as [p|] eqn:P; cbn [option_map]; auto. pose proof (tree_par _ _ _ Ta H P). rewrite IH by lia. rewrite mact_scale, mscale_add_r. auto.
Qed.
Lemma sm_ccv k : (k < n)%nat -> ccv b (s k) = mscale (w * w) (ccv a k).
Proof.
  induction k as [k IH] using lt_wf_ind. intros H. rewrite (ccv_eq a Ta), (ccv_eq b Tb), sm_par, sm_tpv, sm_sub, sm_velv by auto.
  change (qk (ab_dq b) (s k)) with (coef (ab_dq b) (s k)). rewrite (sm_dq _ _ _ _ _ _ M k H), <- mscale_mul. change (coef (ab_dq a) k) with (qk (ab_dq a) k).
  destruct (par a k) as [p|] eqn:P; cbn [option_map]; [|rewrite mscale_zero_r; auto]. pose proof (tree_par _ _ _ Ta H P). rewrite IH by lia.
  rewrite mact_scale, mscale_add_r, mcross_scale_l, mcross_scale_r, mscale_mul. auto.
Qed.
Lemma sm_ccf k : (k < n)%nat -> ccf0 b (s k) = fscale (c * (w * w)) (ccf0 a k).
Proof.
  intros H. unfold ccf0. rewrite sm_ccv, sm_velv, !sm_inertia by auto. rewrite !imul_scale, fcross_scale_l, !fcross_scale_r, !fscale_mul, fscale_add_r.
  f_equal. f_equal. ring.
Qed.
Lemma sm_Sw i : (i < n)%nat -> Sw b (s i) = mact X (Sw a i).
Proof. intros H. unfold Sw. rewrite sm_twv, sm_sub by auto. apply mact_mul; auto. Qed.
Lemma sm_back z f f' i : (i < n)%nat -> (forall k, (k < n)%nat -> fact (twv b (s k)) (f' (s k)) = fscale z (fact X (fact (twv a k) (f k)))) ->
  back b f' (s i) = z * back a f i.
Proof.
  intros Hi H. rewrite (back_world b Tb Rb), (back_world a Ta Ra) by auto.
  rewrite (ksum_renum _ s); [|rewrite (sm_dof _ _ _ _ _ _ M); apply (sm_range _ _ _ _ _ _ M)|rewrite (sm_dof _ _ _ _ _ _ M); apply (sm_distinct _ _ _ _ _ _ M)].
  rewrite (sm_dof _ _ _ _ _ _ M), <- ksum_scale. apply ksum_ext. intros k Hk. rewrite sm_ancb by auto. destruct (ancb a i k); [|ring].
  rewrite H, sm_Sw by auto. rewrite mdot_scale_r, mdot_act by auto. auto.
Qed.
Lemma sm_Cv i : (i < n)%nat -> Cv b (s i) = c * (w * w) * Cv a i.
Proof.
  intros H. unfold Cv. apply sm_back; auto. intros k Hk. rewrite sm_ccf, sm_twv by auto. rewrite fact_mul by auto. rewrite !fact_scale. auto.
Qed.
Lemma sm_force z k f m m' : (k < n)%nat -> m' = mscale z (mact X m) -> f = imul (inertia_at b (s k)) (mact (iso_inv (twv b (s k))) m') ->
  fact (twv b (s k)) f = fscale (c * z) (fact X (fact (twv a k) (imul (inertia_at a k) (mact (iso_inv (twv a k)) m)))).
Proof.
  intros H -> ->. rewrite sm_inertia by auto. rewrite mact_scale, imul_scale, fscale_mul, fact_scale. f_equal.
  assert (Rk : rigid (twv a k)) by (apply tw_rigid; auto).
  rewrite sm_twv by auto. replace (mact (iso_inv (iso_mul X (twv a k))) (mact X m)) with (mact (iso_inv (twv a k)) m).
  - apply fact_mul; auto.
  - transitivity (mact (iso_inv (iso_mul X (twv a k))) (mact (iso_mul X (twv a k)) (mact (iso_inv (twv a k)) m))).
    + symmetry. apply mact_inv_l. apply rigid_mul; auto.
    + f_equal. rewrite mact_mul by auto. rewrite mact_inv_r; auto.
Qed.
Lemma sm_gravity : mang (ab_g a) = v3zero -> mang (ab_g b) = v3zero -> ab_g b = mscale (w * w) (mact X (ab_g a)).
Proof.
  intros Ga Gb. apply grav_act; auto. apply (sm_g _ _ _ _ _ _ M).
Qed.
Lemma sm_Gv i : mang (ab_g a) = v3zero -> mang (ab_g b) = v3zero -> (i < n)%nat -> Gv b (s i) = c * (w * w) * Gv a i.
Proof.
  intros Ga Gb H. unfold Gv. apply sm_back; auto. intros k Hk. unfold grav_f0. apply (sm_force (w * w) k _ (mopp (ab_g a)) (mopp (ab_g b))); auto.
  rewrite sm_gravity by auto. rewrite mact_opp. apply mopp_scale.
Qed.
Lemma sm_Extv z fe fe' i : carried_forces s X z n fe fe' -> (i < n)%nat -> Extv b fe' (s i) = z * Extv a fe i.
Proof.
  intros C H. unfold Extv. apply sm_back; auto. intros k Hk. unfold ext_f0. rewrite C by auto.
  assert (Rk : rigid (twv a k)) by (apply tw_rigid; auto). assert (Rk' : rigid (twv b (s k))) by (apply tw_rigid; auto).
  destruct (fe k) as [f|]; cbn [option_map]; [|rewrite !fact_zero; rewrite fscale_fzero; auto]. rewrite !fact_inv_r by auto. rewrite fact_opp. apply fopp_scale.
Qed.
Lemma sm_Av i j : (i < n)%nat -> (j < n)%nat -> Av b (s i) (s j) = c * Av a i j.
Proof.
  intros Hi Hj. rewrite (A_world b Tb Rb (proper_mass _ Pb) (proper_sym _ Pb)), (A_world a Ta Ra (proper_mass _ Pa) (proper_sym _ Pa)) by auto.
  rewrite (ksum_renum _ s); [|rewrite (sm_dof _ _ _ _ _ _ M); apply (sm_range _ _ _ _ _ _ M)|rewrite (sm_dof _ _ _ _ _ _ M); apply (sm_distinct _ _ _ _ _ _ M)].
  rewrite (sm_dof _ _ _ _ _ _ M), <- ksum_scale. apply ksum_ext. intros k Hk. rewrite !sm_ancb by auto. destruct (ancb a i k && ancb a j k); [|ring].
  unfold Iw. assert (Rk : rigid (twv a k)) by (apply tw_rigid; auto). assert (Rk' : rigid (twv b (s k))) by (apply tw_rigid; auto).
  rewrite !imul_act' by auto. rewrite !sm_Sw by auto. rewrite (sm_force 1 k _ (Sw a j) (mact X (Sw a j))); auto.
  - rewrite mdot_scale_r, mdot_act by auto. ring.
  - rewrite mscale_1. auto.
Qed.
Lemma sm_mat ddq ddq' z i : carried s z n ddq ddq' -> (i < n)%nat -> mat_vec n (Av b) (qk ddq') (s i) = c * z * mat_vec n (Av a) (qk ddq) i.
Proof.
  intros (_ & _ & C) Hi. unfold mat_vec. rewrite (ksum_renum _ s); [|apply (sm_range _ _ _ _ _ _ M)|apply (sm_distinct _ _ _ _ _ _ M)].
  rewrite <- ksum_scale. apply ksum_ext. intros j Hj. change (qk ddq' (s j)) with (coef ddq' (s j)). rewrite C, sm_Av by auto. change (coef ddq j) with (qk ddq j). ring.
Qed.
Lemma sm_id o ddq ddq' fe fe' i : mang (ab_g a) = v3zero -> mang (ab_g b) = v3zero -> carried s (w * w) n ddq ddq' -> carried_forces s X (c * (w * w)) n fe fe' -> (i < n)%nat ->
  id_base b o ddq' fe' (s i) = c * (w * w) * id_base a o ddq fe i.
Proof.
  intros Ga Gb C Cf Hi. unfold id_base. rewrite (sm_dof _ _ _ _ _ _ M). fold n. rewrite (sm_mat _ _ _ _ C Hi), (sm_Extv _ _ _ _ Cf Hi), sm_Cv, sm_Gv by auto.
  destruct (o_cc o), (o_grav o); ring.
Qed.
Lemma sm_jac l off j : (l < n)%nat -> (j < n)%nat -> jacv b (s l) off (s j) = turned X (jacv a l off j).
Proof.
  intros Hl Hj. rewrite (jacv_at a l off j), (jacv_at b (s l) off (s j)) by auto. change (existsb (Nat.eqb (s j)) (anc_at b (s l))) with (ancb b (s j) (s l)).
  rewrite sm_ancb by auto. unfold ancb. destruct (existsb _ _); [|rewrite turned_zero; auto].
  unfold jac_col. rewrite !sm_twv, sm_sub by auto. rewrite iso_app_mul. apply jac_turn; auto.
Qed.
End Same.

Section Api.
Context {S : Scal} {L : ScalLaws S} {PL : PosLaws S} {ES : EqSound S}.
Add Field kf61b : (@kfield S L).
Local Open Scope k_scope.
Variable solve : list (list K) -> list K -> list K.
Variable pinv : list (list K) -> K -> list (list K) * bool.
Variables (s : nat -> nat) (X : iso) (c w : K) (ha hb : list op) (a b : body).
Hypothesis Ha : reached solve pinv ha a.
Hypothesis Hb : reached solve pinv hb b.
Hypothesis Fa : base_fixed false ha = true.
Hypothesis Fb : base_fixed false hb = true.
Hypothesis Pa : proper a.
Hypothesis Pb : proper b.
Hypothesis RX : rigid X.
Hypothesis M : same_machine s X c w a b.
Let n := ab_dof a.

Lemma c61_poses k off : (k < n)%nat -> exists T p,
  outcome (ask solve pinv (QTw (Z.of_nat k)) a) = Ok (AIso T) /\ outcome (ask solve pinv (QTw (Z.of_nat (s k))) b) = Ok (AIso (iso_mul X T)) /\
  outcome (ask solve pinv (QPos (Z.of_nat k) off) a) = Ok (AV3 p) /\ outcome (ask solve pinv (QPos (Z.of_nat (s k)) off) b) = Ok (AV3 (iso_app X p)).
Proof.
  intros Hk. assert (AC : AddComm S) by apply laws_comm. destruct (reached_wfc _ _ _ _ Ha Fa) as [Ta Wa], (reached_wfc _ _ _ _ Hb Fb) as [Tb Wb].
  exists (twv a k), (iso_app (twv a k) off). cbn [ask]. rewrite !outcome_wrap, !out_Pos, (out_Tw a Ta Wa), (out_Tw b Tb Wb).
  rewrite !idx_nat by (auto; eapply sm_lt; eauto). cbn [bind]. rewrite (sm_twv s X c w a b M Ta Tb) by auto. rewrite iso_app_mul. auto.
Qed.
Lemma c61_jacobian k off : (k < n)%nat -> exists J J',
  outcome (ask solve pinv (QJac (Z.of_nat k) off) a) = Ok (AMots J) /\ outcome (ask solve pinv (QJac (Z.of_nat (s k)) off) b) = Ok (AMots J') /\
  List.length J' = n /\ forall j, (j < n)%nat -> col J' (s j) = turned X (col J j).
Proof.
  intros Hk. assert (AC : AddComm S) by apply laws_comm. destruct (reached_wfc _ _ _ _ Ha Fa) as [Ta Wa], (reached_wfc _ _ _ _ Hb Fb) as [Tb Wb].
  destruct (out_Jac a Ta Wa (Z.of_nat k) off) as (oa & Oa & Ea), (out_Jac b Tb Wb (Z.of_nat (s k)) off) as (ob & Ob & Eb).
  assert (oa = off) by (destruct Oa as [->|[_ E]]; auto; apply v3eqb_sound; auto).
  assert (ob = off) by (destruct Ob as [->|[_ E]]; auto; apply v3eqb_sound; auto). subst oa ob.
  rewrite idx_nat in Ea, Eb by (auto; eapply sm_lt; eauto).
  exists (vec n (jacv a k off)), (vec (ab_dof b) (jacv b (s k) off)). cbn [ask]. rewrite !outcome_wrap, Ea, Eb. split; [reflexivity|]. split; [reflexivity|].
  rewrite (sm_dof _ _ _ _ _ _ M). split; [apply vec_length|]. intros j Hj. unfold col. rewrite !nth_vec by (auto; apply (sm_range _ _ _ _ _ _ M); auto).
  apply (sm_jac s X c w a b M RX Ta Tb); auto.
Qed.
Lemma c61_terms fe fe' : carried_forces s X (c * (w * w)) n fe fe' -> exists A A' C C' G G' E E',
  outcome (ask solve pinv QInertia a) = Ok (AMat A) /\ outcome (ask solve pinv QInertia b) = Ok (AMat A') /\
  outcome (ask solve pinv QCC a) = Ok (AVec C) /\ outcome (ask solve pinv QCC b) = Ok (AVec C') /\
  outcome (ask solve pinv QGrav a) = Ok (AVec G) /\ outcome (ask solve pinv QGrav b) = Ok (AVec G') /\
  outcome (ask solve pinv (QExt fe) a) = Ok (AVec E) /\ outcome (ask solve pinv (QExt fe') b) = Ok (AVec E') /\
  (forall i j, (i < n)%nat -> (j < n)%nat -> entry A' (s i) (s j) = c * entry A i j) /\
  carried s (c * (w * w)) n C C' /\ carried s (c * (w * w)) n G G' /\ carried s (c * (w * w)) n E E'.
Proof.
  intros Cf. assert (AC : AddComm S) by apply laws_comm. destruct (reached_wfc _ _ _ _ Ha Fa) as [Ta Wa], (reached_wfc _ _ _ _ Hb Fb) as [Tb Wb].
  pose proof (reached_g _ _ _ _ Ha) as Ga. pose proof (reached_g _ _ _ _ Hb) as Gb. pose proof (sm_range _ _ _ _ _ _ M) as SR. pose proof (sm_dof _ _ _ _ _ _ M) as D. fold n in SR, D.
  do 8 eexists. cbn [ask]. rewrite !outcome_wrap, (out_Inertia a Ta Wa), (out_Inertia b Tb Wb), (out_CC a Ta Wa), (out_CC b Tb Wb), (out_Grav a Ta Wa), (out_Grav b Tb Wb), (out_Ext a Ta Wa), (out_Ext b Tb Wb).
  cbn [bind]. do 8 (split; [reflexivity|]). rewrite D. fold n. unfold carried. rewrite !vec_length. repeat split; intros.
  - rewrite !entry_mat by auto. apply (sm_Av s X c w a b M RX Ta Tb Pa Pb); auto.
  - rewrite !coef_vec by auto. apply (sm_Cv s X c w a b M RX Ta Tb Pa Pb); auto.
  - rewrite !coef_vec by auto. apply (sm_Gv s X c w a b M RX Ta Tb Pa Pb); auto.
  - rewrite !coef_vec by auto. apply (sm_Extv s X c w a b M RX Ta Tb Pa Pb); auto.
Qed.
Lemma c61_id ddq ddq' fe fe' o : carried_forces s X (c * (w * w)) n fe fe' -> carried s (w * w) n ddq ddq' -> o_fric o = false -> exists tau tau',
  outcome (ask solve pinv (QID ddq fe o) a) = Ok (AVec tau) /\ outcome (ask solve pinv (QID ddq' fe' o) b) = Ok (AVec tau') /\ carried s (c * (w * w)) n tau tau'.
Proof.
  intros Cf Cd Of. assert (AC : AddComm S) by apply laws_comm. destruct (reached_wfc _ _ _ _ Ha Fa) as [Ta Wa], (reached_wfc _ _ _ _ Hb Fb) as [Tb Wb].
  pose proof (reached_g _ _ _ _ Ha) as Ga. pose proof (reached_g _ _ _ _ Hb) as Gb. pose proof (sm_range _ _ _ _ _ _ M) as SR. pose proof (sm_dof _ _ _ _ _ _ M) as D. fold n in SR, D.
  destruct Cd as (L1 & L2 & Cd). do 2 eexists. cbn [ask]. rewrite !outcome_wrap, (out_ID a Ta Wa), (out_ID b Tb Wb) by auto. rewrite D. fold n. rewrite L1, L2, Nat.eqb_refl. cbn [bind].
  split; [reflexivity|]. split; [reflexivity|]. unfold carried. rewrite !vec_length. repeat split; intros. rewrite !coef_vec by auto.
  unfold plus_friction. rewrite Of. apply (sm_id s X c w a b M RX Ta Tb Pa Pb); auto. repeat split; auto.
Qed.
(** existence and uniqueness of the renumbered vector *)
Lemma carry z x : List.length x = n -> exists y, carried s z n x y.
Proof.
  intros Lx. pose proof (sm_range _ _ _ _ _ _ M) as SR. pose proof (sm_distinct _ _ _ _ _ _ M) as SD. fold n in SR, SD.
  exists (vec n (fun i => z * coef x (back_to n s i))). split; auto. split; [apply vec_length|]. intros k Hk. rewrite coef_vec by auto. rewrite back_to_ok; auto.
Qed.
Lemma carried_eq z x y y' : carried s z n x y -> carried s z n x y' -> y = y'.
Proof.
  intros (_ & L1 & C1) (_ & L2 & C2). apply (list_coef_ext n); auto. intros i Hi.
  destruct (renum_onto n s (sm_range _ _ _ _ _ _ M) (sm_distinct _ _ _ _ _ _ M) i Hi) as (k & Hk & <-). rewrite C1, C2; auto.
Qed.
Lemma id_len {h0 ab ddq fe o tau} : reached solve pinv h0 ab -> base_fixed false h0 = true -> proper ab ->
  outcome (ask solve pinv (QID ddq fe o) ab) = Ok (AVec tau) -> List.length ddq = ab_dof ab.
Proof.
  intros R B P E. assert (AC : AddComm S) by apply laws_comm. destruct (reached_wfc _ _ _ _ R B) as [T W]. cbn [ask] in E.
  rewrite outcome_wrap, (out_ID ab T W) in E by auto. destruct (Nat.eqb_spec (List.length ddq) (ab_dof ab)); auto. discriminate E.
Qed.
Lemma carry_back tau tau' ddq fe fe' o : carried_forces s X (c * (w * w)) n fe fe' -> carried s (c * (w * w)) n tau tau' -> o_fric o = false ->
  outcome (ask solve pinv (QID ddq fe o) a) = Ok (AVec tau) ->
  exists ddq', carried s (w * w) n ddq ddq' /\ outcome (ask solve pinv (QID ddq' fe' o) b) = Ok (AVec tau').
Proof.
  intros Cf Ct Of E. pose proof (id_len Ha Fa Pa E) as Ld. destruct (carry (w * w) ddq Ld) as (ddq' & Cd). exists ddq'. split; auto.
  destruct (c61_id ddq ddq' fe fe' o Cf Cd Of) as (t & t' & E1 & E2 & C2). rewrite E in E1. injection E1 as <-. rewrite E2. do 2 f_equal. eapply carried_eq; eauto.
Qed.
Lemma row_ksum m B x i : row_times m B x i = ksum m (fun j => entry B i j * coef x j).
Proof. unfold row_times. apply total_ksum. Qed.
Lemma inj_renum A A' : (forall i j, (i < n)%nat -> (j < n)%nat -> entry A' (s i) (s j) = c * entry A i j) -> c <> 0 -> injective n A -> injective n A'.
Proof.
  intros H Hc I x Lx Hx i Hi. pose proof (sm_range _ _ _ _ _ _ M) as SR. pose proof (sm_distinct _ _ _ _ _ _ M) as SD. fold n in SR, SD.
  destruct (renum_onto n s SR SD i Hi) as (k & Hk & <-).
  specialize (I (vec n (fun j => coef x (s j))) (vec_length _ _)). rewrite <- (coef_vec n (fun j => coef x (s j))) by auto. apply I; auto. clear k Hk Hi. intros i Hi.
  specialize (Hx (s i) (SR i Hi)). rewrite row_ksum in Hx |- *. rewrite (ksum_renum _ s) in Hx by auto.
  rewrite (ksum_ext n _ (fun j => c * (entry A i j * coef (vec n (fun j => coef x (s j))) j))) in Hx.
  2:{ intros j Hj. rewrite H, coef_vec by auto. ring. }
  rewrite ksum_scale in Hx. match goal with |- ?y = 0 => transitivity (kinv c * (c * y)) end; [field; auto|]. rewrite Hx. ring.
Qed.
Lemma c61_fd tau tau' fe fe' o A A' : carried_forces s X (c * (w * w)) n fe fe' -> carried s (c * (w * w)) n tau tau' -> o_fric o = false -> c <> 0 ->
  outcome (ask solve pinv QInertia a) = Ok (AMat A) -> outcome (ask solve pinv QInertia b) = Ok (AMat A') -> solver_ok solve n A -> solver_ok solve n A' -> injective n A ->
  exists ddq ddq', outcome (ask solve pinv (QFD tau fe o) a) = Ok (AVec ddq) /\ outcome (ask solve pinv (QFD tau' fe' o) b) = Ok (AVec ddq') /\ carried s (w * w) n ddq ddq'.
Proof.
  intros Cf Ct Of Hc EA EA' SA SA' IA. pose proof (sm_dof _ _ _ _ _ _ M) as D. fold n in D.
  destruct (c17 solve pinv _ _ fe o Ha Fa Pa Of) as (A1 & E1 & F1). rewrite EA in E1. injection E1 as <-. destruct (F1 SA) as [F2 _]. destruct (F2 tau) as (ddq & G1 & G2); [apply Ct|].
  destruct (c17 solve pinv _ _ fe' o Hb Fb Pb Of) as (A2 & E2 & F3). rewrite EA' in E2. injection E2 as <-. rewrite D in F3. fold n in F3. destruct (F3 SA') as [_ F4].
  destruct (carry_back _ _ _ _ _ _ Cf Ct Of G2) as (ddq' & Cd & G3). exists ddq, ddq'. split; auto. split; auto.
  destruct (c61_terms fe fe' Cf) as (B & B' & _ & _ & _ & _ & _ & _ & X1 & X2 & _ & _ & _ & _ & _ & _ & X3 & _). rewrite EA in X1. rewrite EA' in X2. injection X1 as <-. injection X2 as <-.
  destruct (F4 (inj_renum _ _ X3 Hc IA) ddq') as (t & T1 & T2); [apply Cd|]. rewrite G3 in T1. injection T1 as <-. auto.
Qed.
Lemma c61_aba tau tau' fe fe' o : carried_forces s X (c * (w * w)) n fe fe' -> carried s (c * (w * w)) n tau tau' -> o_fric o = false ->
  unmixed ha = true -> unmixed hb = true -> articulable a -> articulable b -> (o_grav o = true -> rot (ab_Tbase a) = m3id /\ rot (ab_Tbase b) = m3id) ->
  exists ddq ddq', outcome (ask solve pinv (QAba tau fe o) a) = Ok (AVec ddq) /\ outcome (ask solve pinv (QAba tau' fe' o) b) = Ok (AVec ddq') /\ carried s (w * w) n ddq ddq'.
Proof.
  intros Cf Ct Of Ua Ub Ra Rb HB. pose proof (sm_dof _ _ _ _ _ _ M) as D. fold n in D.
  destruct (c18 solve pinv _ _ fe o Ha Fa Ua Pa Ra Of) as [F1 _]; [intros; apply HB; auto|]. destruct (F1 tau) as (ddq & G1 & G2); [apply Ct|].
  destruct (c18 solve pinv _ _ fe' o Hb Fb Ub Pb Rb Of) as [_ F2]; [intros; apply HB; auto|].
  destruct (carry_back _ _ _ _ _ _ Cf Ct Of G2) as (ddq' & Cd & G3). exists ddq, ddq'. split; auto. split; auto.
  destruct (F2 ddq') as (t & T1 & T2); [rewrite D; apply Cd|]. rewrite G3 in T1. injection T1 as <-. auto.
Qed.
End Api.
