(** The simulator application (C63): the mouse and the keyboard. *)
From Coq Require Import List Arith ZArith Bool String Ascii Lia Field Reals Lra.
From Verif Require Import Scalar Instances Base Spatial Joint Body Kin InvDyn FwdDyn Opspace OpspaceAba Deriv Sim Ops Control Discrete Json App Specs SpecCache SpecKin SpecDyn SpecReal SpecOps SpecControl SpecDiscrete SpecHold SpecApp
  SpatialTac SpatialProofs TreeProofs CacheProofs CacheOps KinProofs DynProofs DynApi BigSum RealCalc RealMotion AppProofs AppLoop.
Import ListNotations.
Local Open Scope nat_scope.

Section Force.
Context {S : Scal} {L : ScalLaws S}.
Add Field kf : (@kfield S L).
Variable solve : list (list K) -> list K -> list K.
Variable pinv : list (list K) -> K -> list (list K) * bool.
Local Open Scope k_scope.

Lemma shows_at i k v : shows i k v -> const_at i k = Ok v.
Proof. intros (l & -> & E). cbn. rewrite E. reflexivity. Qed.
Lemma shows_str i k v : shows i k (VStr v) -> string_at i k = Ok v.
Proof. intros (l & -> & E). cbn. rewrite E. reflexivity. Qed.
Lemma dec_enc (x : v3) : dec_v3 (enc_v3 x) = Ok x.
Proof. destruct x. reflexivity. Qed.
Lemma to_int_small z : (- 2 ^ 31 <= z < 2 ^ 31)%Z -> to_int (z mod 2 ^ 64) = z.
Proof.
  intros H. unfold to_int.
  assert (E : ((z mod 2 ^ 64 + 2 ^ 31) mod 2 ^ 32 = (z + 2 ^ 31) mod 2 ^ 32)%Z).
  { rewrite (Z.mod_eq z (2 ^ 64)) by lia. replace (z - 2 ^ 64 * (z / 2 ^ 64) + 2 ^ 31)%Z with (z + 2 ^ 31 + (- 2 ^ 32 * (z / 2 ^ 64)) * 2 ^ 32)%Z by lia. apply Z.mod_add. lia. }
  rewrite E, Z.mod_small; lia.
Qed.
Lemma outcome_forces i ab link point mouse : drags i ab link point mouse -> (- 2 ^ 31 <= link < 2 ^ 31)%Z ->
  outcome (compute_external_forces i ab) = bind (outcome (q_Position link point ab)) (fun p =>
    Ok (fun k => if Z.eqb (Z.of_nat k) (link mod 2 ^ 64) then Some (click_force mouse p) else None)).
Proof.
  intros [H1 H2 H3 H4] Hl. unfold compute_external_forces.
  rewrite (shows_at _ _ _ H1). cbn [bind get_str]. change key_models_prefix with "spatial_dyn::model::"%string. rewrite String.eqb_refl. cbn [negb].
  rewrite (shows_at _ _ _ H2). cbn [bind get_size]. rewrite (shows_at _ _ _ H3). cbn [bind]. rewrite dec_enc. cbn [bind].
  rewrite (shows_at _ _ _ H4). cbn [bind]. rewrite dec_enc. cbn [bind]. rewrite to_int_small by auto.
  destruct (q_Position link point ab) as [[a p]| |]; reflexivity.
Qed.
Lemma elsewhere_none i ab : elsewhere i ab -> compute_external_forces i ab = Ok (ab, no_force).
Proof.
  intros (key & H & N). unfold compute_external_forces. rewrite (shows_at _ _ _ H). cbn [bind get_str]. change key_models_prefix with "spatial_dyn::model::"%string.
  destruct (String.eqb_spec key ("spatial_dyn::model::" ++ ab_name ab)); [contradiction|]. reflexivity.
Qed.
Lemma power_click mouse p m : power_at p (click_force mouse p) m = klit 100 1 * v3dot (v3sub mouse p) (mlin m).
Proof. unfold power_at, click_force, gain_click_drag. generalize (klit 100 1). vring. Qed.
Lemma c63_click h ab i k point mouse : reached solve pinv h ab -> base_fixed false h = true -> rigid_robot ab ->
  k < ab_dof ab -> (Z.of_nat (ab_dof ab) <= 2 ^ 31)%Z -> drags i ab (Z.of_nat k) point mouse ->
  exists p J fe E, Position_q ab (ab_q ab) (Z.of_nat k) point = Ok p /\ Jacobian_q ab (ab_q ab) (Z.of_nat k) point = Ok J /\
    outcome (compute_external_forces i ab) = Ok fe /\ outcome (ask solve pinv (QExt fe) ab) = Ok (AVec E) /\ List.length E = ab_dof ab /\
    forall j, j < ab_dof ab -> coef E j = - (klit 100 1 * v3dot (v3sub mouse p) (mlin (col J j))).
Proof.
  intros R B RR Hk Hn D. assert (AC : AddComm S) by apply laws_comm. destruct (reached_wfc solve pinv _ _ R B) as [T W].
  set (fe := fun k' : nat => if Z.eqb (Z.of_nat k') (Z.of_nat k) then Some (click_force mouse (iso_app (twv ab k) point)) else None).
  destruct (c16 solve pinv h ab fe R B RR) as (J & X & E & HJ & HX & HE & HL & HC).
  pose proof (position_stored ab (Z.of_nat k) point T) as HP. rewrite idx_nat in HP by auto.
  exists (iso_app (twv ab k) point), (J k point), fe, E. split; [exact HP|]. split; [apply HJ; auto|]. split.
  { rewrite (outcome_forces i ab _ _ _ D) by lia. rewrite out_Pos, out_Tw, idx_nat by auto. cbn [bind]. rewrite Z.mod_small by lia. reflexivity. }
  split; [exact HE|]. split; [exact HL|]. intros j Hj. rewrite (HC j (fun _ => point) Hj). f_equal.
  unfold over_links. rewrite total_ksum. erewrite ksum_ext; [apply (ksum_single (ab_dof ab) k (fun k => klit 100 1 * v3dot (v3sub mouse (iso_app (twv ab k) point)) (mlin (col (J k point) j))) Hk)|].
  intros k' Hk'. cbn beta. unfold fe. destruct (Nat.eqb_spec k' k) as [->|N].
  - rewrite Z.eqb_refl. specialize (HX k point Hk). rewrite HP in HX. assert (X1 : X k point = iso_app (twv ab k) point) by congruence. rewrite X1. apply power_click.
  - destruct (Z.eqb_spec (Z.of_nat k') (Z.of_nat k)); [lia|reflexivity].
Qed.
(** Link -1, which elsewhere is the last link. *)
Lemma c63_last h ab i point mouse : reached solve pinv h ab -> base_fixed false h = true -> 0 < ab_dof ab ->
  (Z.of_nat (ab_dof ab) < 2 ^ 64)%Z -> drags i ab (-1) point mouse ->
  exists fe, outcome (compute_external_forces i ab) = Ok fe /\ (forall k, k < ab_dof ab -> fe k = None) /\ fe (Z.to_nat (2 ^ 64 - 1)) <> None.
Proof.
  intros R B Hn Hb D. assert (AC : AddComm S) by apply laws_comm. destruct (reached_wfc solve pinv _ _ R B) as [T W].
  rewrite (outcome_forces i ab _ _ _ D) by lia. rewrite out_Pos, out_Tw by auto.
  assert (Q : exists l, idx (ab_dof ab) (-1) = Some l).
  { unfold idx, norm_idx. cbn [Z.ltb Z.compare]. eexists. destruct (Z.leb_spec 0 (-1 + Z.of_nat (ab_dof ab))); [|lia]. destruct (Z.ltb_spec (-1 + Z.of_nat (ab_dof ab)) (Z.of_nat (ab_dof ab))); [|lia]. reflexivity. }
  destruct Q as [l Q]. rewrite Q. cbn [bind]. eexists. split; [reflexivity|]. split.
  - intros k Hk. destruct (Z.eqb_spec (Z.of_nat k) (-1 mod 2 ^ 64)) as [E|N]; [|reflexivity]. exfalso. change (-1 mod 2 ^ 64)%Z with (2 ^ 64 - 1)%Z in E. lia.
  - cbn beta. rewrite Z2Nat.id by lia. change (-1 mod 2 ^ 64)%Z with (2 ^ 64 - 1)%Z. rewrite Z.eqb_refl. discriminate.
Qed.
Lemma c63_elsewhere i ab : elsewhere i ab -> outcome (compute_external_forces i ab) = Ok no_force.
Proof. intros H. rewrite elsewhere_none; auto. Qed.
End Force.

Section Keys.
Local Existing Instance RScal.
Local Open Scope R_scope.
Variable solve : list (list R) -> list R -> list R.
Variable pinv : list (list R) -> R -> list (list R) * bool.
Lemma stretch_deriv (mouse d : @v3 RScal) P t : v3_deriv P t d ->
  derivable_pt_lim (fun x => stretch mouse (P x)) t (- (100 * @v3dot RScal (v3sub mouse (P t)) d)).
Proof.
  intros (H1 & H2 & H3). unfold stretch. destruct mouse as [m1 m2 m3], d as [d1 d2 d3]. cbn in m1, m2, m3, d1, d2, d3. cbn [vx vy vz] in *.
  set (p1 := fun u => vx (P u)) in *. set (p2 := fun u => vy (P u)) in *. set (p3 := fun u => vz (P u)) in *.
  apply (d_ext _ (fun u => 50 * ((m1 - p1 u) * (m1 - p1 u) + (m2 - p2 u) * (m2 - p2 u) + (m3 - p3 u) * (m3 - p3 u)))); [intros u; unfold p1, p2, p3; ring|].
  eapply d_eq.
  - apply d_mul; [apply d_const|]. apply d_add; [apply d_add|]; apply d_mul; apply d_sub; (apply d_const || eassumption).
  - change (vx (P t)) with (p1 t). unfold v3dot, v3sub. cbn. fold (p1 t) (p2 t) (p3 t). change (vx (P t)) with (p1 t). change (vy (P t)) with (p2 t). change (vz (P t)) with (p3 t).
    generalize (p1 t) (p2 t) (p3 t). intros. cbn in *. ring.
Qed.
Lemma lit100 : @klit RScal 100 1 = 100. Proof. cbn. lra. Qed.
Lemma c63_spring h (ab : @body RScal) i k point mouse j : reached solve pinv h ab -> base_fixed false h = true -> rigid_robot ab -> proper_joints ab ->
  (k < ab_dof ab)%nat -> (j < ab_dof ab)%nat -> (Z.of_nat (ab_dof ab) <= 2 ^ 31)%Z -> drags i ab (Z.of_nat k) point mouse ->
  exists P fe E, (forall x, Position_q ab (replaced (ab_q ab) j x) (Z.of_nat k) point = Ok (P x)) /\
    outcome (compute_external_forces i ab) = Ok fe /\ outcome (ask solve pinv (QExt fe) ab) = Ok (AVec E) /\
    derivable_pt_lim (fun x => stretch mouse (P x)) (@coef RScal (ab_q ab) j) (@coef RScal E j).
Proof.
  intros R B RR PJ Hk Hj Hn D. destruct (c63_click (S:=RScal) (L:=RLaws) solve pinv h ab i k point mouse R B RR Hk Hn D) as (p & J & fe & E & H1 & H2 & H3 & H4 & _ & H5).
  assert (AC : AddComm RScal) by exact (@laws_comm RScal RLaws). destruct (reached_wfc (S:=RScal) solve pinv _ _ R B) as [T _].
  destruct (c09 solve pinv h ab (ab_q ab) (Z.of_nat k) k point j R RR PJ) as (P & O & J' & G1 & _ & G3 & G4 & _); auto; [apply (tk_q _ T)|apply idx_nat; auto|].
  assert (J' = J) by congruence. subst J'. exists P, fe, E. split; [exact G1|]. split; [exact H3|]. split; [exact H4|].
  rewrite (H5 j Hj). specialize (G1 (@coef RScal (ab_q ab) j)). rewrite replaced_same, H1 in G1. injection G1 as G1. rewrite G1, lit100. apply stretch_deriv. exact G4.
Qed.

Variable log6 : iso -> motion.
Variable dlog6 : iso -> i6.
Variable norm : list R -> R.
Variable pd_pos : v3 -> v3 -> list R -> R * R -> list R.
Variable pd_ori : m3 -> m3 -> list R -> R * R -> list R.
Variable pd_joint : list R -> list R -> list R -> R * R -> list R.
Local Notation app_step := (@App.app_step RScal solve pinv log6 dlog6 norm pd_pos pd_ori pd_joint).
Local Notation app_loop := (@App.app_loop RScal solve pinv log6 dlog6 norm pd_pos pd_ori pd_joint).
Lemma step_goal t s s' f : app_step t s = Ok (s', f) -> exists i key, t_web t = Some i /\ string_at i "key_down" = Ok key /\
  a_x s' = adjust_position key (a_x s) /\ f_goal f = a_x s' /\ a_q s' = a_q s /\ a_R s' = a_R s.
Proof.
  unfold App.app_step. intros E. destruct (app_control _ _ _ _ _ _ _ _ _ _) as [[a1 [[tau x] R]]| |]; try discriminate. cbn [bind] in E.
  destruct (t_web t) as [i|]; try discriminate. cbn [bind get_future] in E. destruct (compute_external_forces i a1) as [[a2 fe]| |]; try discriminate. cbn [bind] in E.
  destruct (string_at i "key_down") as [key| |] eqn:Ek; try discriminate. cbn [bind] in E. destruct (q_DiscreteIntegrate _ _ _ _ _ _ _ _ _ _ _) as [[a3 d]| |]; try discriminate. cbn [bind] in E.
  inversion E; subst; clear E. exists i, key. cbn. auto 10.
Qed.
Lemma gain : @gain_key_press RScal = 1 / 10000. Proof. unfold gain_key_press. cbn. lra. Qed.
Lemma r3_ext (a b c a' b' c' : R) : a = a' -> b = b' -> c = c' -> @V3 RScal a b c = @V3 RScal a' b' c'.
Proof. congruence. Qed.
Lemma keyed_cons x (t : @tick RScal) ts i key : t_web t = Some i -> string_at i "key_down" = Ok key ->
  keyed x (t :: ts) = keyed (adjust_position key x) ts.
Proof.
  intros Hw Hk. assert (P : forall c, times_pressed c (t :: ts) = ((match key with String c' _ => if Ascii.eqb c c' then 1 else 0 | _ => 0 end) + times_pressed c ts)%nat).
  { intros c. unfold times_pressed. cbn [filter]. rewrite Hw. unfold string_at in Hk. destruct i as [ | | | | | |l]; try discriminate. unfold pressed. destruct (assoc "key_down" l) as [v|]; try discriminate.
    destruct v; try discriminate. cbn in Hk. injection Hk as ->. destruct key as [|c' key]; [reflexivity|]. destruct (Ascii.eqb c c'); reflexivity. }
  unfold keyed. rewrite !P, !plus_INR. unfold adjust_position. rewrite gain. destruct x as [x y z]. cbn in x, y, z.
  destruct key as [|c key]; [cbn [INR vx vy vz]; apply r3_ext; lra|].
  repeat match goal with |- context [if Ascii.eqb c ?a then _ else _] => destruct (Ascii.eqb_spec c a) as [->|?] end;
  repeat match goal with N : c <> ?a |- context [Ascii.eqb ?a c] => rewrite (proj2 (Ascii.eqb_neq a c)) by congruence end;
  cbn; apply r3_ext; lra.
Qed.
Lemma c63_keys ts : forall s fs e, app_loop ts s = Ok (fs, e) ->
  (forall k f, nth_error fs k = Some f -> f_goal f = keyed (a_x s) (firstn (Datatypes.S k) ts)) /\
  (forall s', e = Some s' -> List.length fs = List.length ts /\ a_x s' = keyed (a_x s) ts /\ a_q s' = a_q s /\ a_R s' = a_R s).
Proof.
  assert (K0 : forall x, keyed x [] = x) by (intros [x y z]; unfold keyed, times_pressed; cbn; cbn in x, y, z; apply r3_ext; lra).
  induction ts as [|t ts IH]; intros s fs e E; cbn [App.app_loop] in E.
  - inversion E; subst. split; [intros [|k] f H; discriminate|]. intros s' H. injection H as <-. rewrite K0. auto.
  - destruct (app_step t s) as [[s1 f1]| |] eqn:E1; try discriminate.
    + destruct (app_loop ts s1) as [[fs1 e1]| |] eqn:E2; try discriminate. cbn [bind] in E. inversion E; subst; clear E.
      destruct (step_goal _ _ _ _ E1) as (i & key & H1 & H2 & H3 & H4 & H5 & H6). destruct (IH s1 fs1 e E2) as [I1 I2]. split.
      * intros [|k] f H; cbn in H; cbn [firstn]; rewrite (keyed_cons _ _ _ i key H1 H2), <- H3; [injection H as <-; cbn [firstn]; rewrite K0; auto|apply I1; auto].
      * intros s' H. destruct (I2 s' H) as (J1 & J2 & J3 & J4). cbn [List.length]. rewrite (keyed_cons _ _ _ i key H1 H2), <- H3, J2, J3, J4. auto.
    + inversion E; subst. split; [intros [|k] f H; discriminate|]. intros s' H. discriminate.
Qed.
End Keys.
