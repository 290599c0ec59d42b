(** Dynamics at the level of API results (C05, C12, C14-C17). *)
From Coq Require Import List Arith ZArith Bool Lia Ring Field.
From Verif Require Import Scalar Base Spatial SpecGeo Joint Body Kin InvDyn FwdDyn Opspace OpspaceAba Deriv Sim Ops Specs SpecCache SpecKin SpecDyn SpatialTac SpatialProofs TreeProofs CacheProofs CacheOps JointProofs BigSum KinProofs WorldProofs DynProofs LoadProofs.
Import ListNotations.

Section DynApi.
Context {S : Scal} {L : ScalLaws S} {PL : PosLaws S}.
Add Field kf : (@kfield S L).
Variable solve : list (list K) -> list K -> list K.
Variable pinv : list (list K) -> K -> list (list K) * bool.
Local Open Scope k_scope.

(** ** Mass and symmetry of the links with their loads *)
Lemma proper_mass ab : proper ab -> forall i, (i < ab_dof ab)%nat -> klt 0 (imass (inertia_at ab i)) = true.
Proof.
  intros P i Hi. pose proof (pr_mass _ P i Hi) as H. unfold bodies_on in H. unfold inertia_at, rb_at.
  destruct (ab_loads ab (Z.of_nat i)) as [J|]; cbn in *.
  - match goal with H : klt _ ?x = _ |- klt _ ?y = _ => replace y with x; auto; ring end.
  - match goal with H : klt _ ?x = _ |- klt _ ?y = _ => replace y with x; auto; ring end.
Qed.
Lemma proper_sym ab : proper ab -> forall i, (i < ab_dof ab)%nat -> isym (inertia_at ab i).
Proof.
  intros P i Hi. pose proof (pr_sym _ P i Hi) as H. unfold bodies_on in H. unfold inertia_at, rb_at.
  destruct (ab_loads ab (Z.of_nat i)) as [J|]; inversion H; subst; auto. inversion H3; subst. apply isym_add; auto.
Qed.
(** The spatial inertia of a link with its load acts as the sum of the bodies. *)
Lemma bodies_mul ab i m x : proper ab -> (i < ab_dof ab)%nat ->
  mdot x (imul (inertia_at ab i) m) = total (map (fun B => mdot x (imul B m)) (bodies_on ab i)).
Proof.
  intros P Hi. pose proof (proper_mass ab P i Hi) as M. apply kpos_neq in M. revert M.
  unfold inertia_at, bodies_on, rb_at. destruct (ab_loads ab (Z.of_nat i)) as [J|]; cbn; intros M; [|ring].
  rewrite iadd_mul by auto. rewrite mdot_add_r. ring.
Qed.

Section Robot.
Variable ab : body.
Hypothesis T : tree_ok ab.
Hypothesis W : wfc ab.
Let n := ab_dof ab.

Lemma out_ID ddq fe o : proper ab -> outcome (q_InverseDynamics ddq fe o ab) =
  if Nat.eqb (List.length ddq) (ab_dof ab) then Ok (vec (ab_dof ab) (plus_friction ab o (id_base ab o ddq fe))) else UB.
Proof.
  intros P. destruct W as (c & E & V). unfold q_InverseDynamics. destruct (Nat.eqb _ _); [|reflexivity]. rewrite outcome_on_cache, E.
  pose proof (id_value_eq ab T (pr_rigid _ P) (proper_mass _ P) (proper_sym _ P) ddq fe o c) as X.
  destruct (inverse_dynamics ab ddq fe o c) as [c' tau]. cbn [bind fst snd] in *. f_equal. apply vec_ext. intros i Hi. apply X; auto.
Qed.
(** Torque left after bias and friction. *)
Definition fd_rhs (tau : list K) (fe : fmap) (o : id_opts) : arr K :=
  let d := fun i => qk tau i - ((if o_cc o then Cv ab i else 0) + (if o_grav o then Gv ab i else 0) + Extv ab fe i) in
  if o_fric o then fun i => d i - friction_arr ab d false (o_stic o) i else d.
Lemma qk_vec m f i : (i < m)%nat -> qk (vec m f) i = f i.
Proof. intros H. apply nth_vec; auto. Qed.
Lemma out_FD tau fe o : proper ab -> outcome (q_ForwardDynamics solve tau fe o ab) =
  if Nat.eqb (List.length tau) (ab_dof ab) then Ok (solve (mat (ab_dof ab) (ab_dof ab) (Av ab)) (vec (ab_dof ab) (fd_rhs tau fe o))) else UB.
Proof.
  intros P. destruct W as (c & E & V). unfold q_ForwardDynamics. destruct (Nat.eqb _ _); [|reflexivity]. rewrite outcome_on_cache, E.
  unfold forward_dynamics.
  pose proof (id_value_eq ab T (pr_rigid _ P) (proper_mass _ P) (proper_sym _ P) (vec (ab_dof ab) (fun _ => 0)) fe (IdOpts (o_grav o) (o_cc o) false (klit 1 100)) c) as X.
  pose proof (inverse_dynamics_inv ab T (vec (ab_dof ab) (fun _ => 0)) fe (IdOpts (o_grav o) (o_cc o) false (klit 1 100)) c V) as V1.
  destruct (inverse_dynamics ab _ _ _ c) as [c' b]. cbn [bind fst snd] in *.
  destruct (ensure_crba_inv_inv ab T c' V1) as [V2 F]. f_equal.
  rewrite (mat_ext _ _ _ (Av ab)) by (intros; apply (i_crbai _ _ V2 F); auto).
  f_equal. apply vec_ext. intros i Hi.
  assert (B : b i = (if o_cc o then Cv ab i else 0) + (if o_grav o then Gv ab i else 0) + Extv ab fe i).
  { rewrite X by auto. unfold plus_friction, id_base. cbn [o_fric o_cc o_grav]. unfold mat_vec.
    rewrite ksum_zero; [ring|]. intros j Hj. rewrite qk_vec by auto. ring. }
  unfold fd_rhs. cbn zeta. destruct (o_fric o); [unfold friction_arr|]; rewrite B; auto.
Qed.
End Robot.

(** C05 *)
Lemma proper_cold ab mem : proper ab -> proper (cold ab mem).
Proof. intros [A B C]. constructor; auto. Qed.
Lemma c05 h ab mem q : reached solve pinv h ab -> base_fixed false h = true -> proper ab -> eom_query q = true ->
  outcome (ask solve pinv q ab) = outcome (ask solve pinv q (cold ab mem)).
Proof.
  intros R B P Q. assert (AC : AddComm S) by apply laws_comm. destruct (reached_wfc _ _ _ _ R B) as [T W].
  pose proof (cold_tree ab mem T) as T'. pose proof (cold_wfc ab mem) as W'. pose proof (proper_cold ab mem P) as P'.
  destruct q; try discriminate Q; cbn [ask]; rewrite !outcome_wrap.
  - rewrite (out_ID ab T W), (out_ID _ T' W') by auto. reflexivity.
  - rewrite (out_FD ab T W), (out_FD _ T' W') by auto. reflexivity.
Qed.

(** C14 *)
Lemma entry_mat n f i j : (i < n)%nat -> (j < n)%nat -> entry (mat n n f) i j = f i j.
Proof. intros Hi Hj. unfold entry, mat. rewrite (nth_vec n (fun i => vec n (f i))) by auto. apply nth_vec; auto. Qed.
Lemma coef_vec n f i : (i < n)%nat -> coef (vec n f) i = f i.
Proof. intros Hi. apply nth_vec; auto. Qed.
Lemma c14 h ab ddq fe o : reached solve pinv h ab -> base_fixed false h = true -> proper ab -> List.length ddq = ab_dof ab ->
  exists A C G E tau,
    outcome (ask solve pinv QInertia ab) = Ok (AMat A) /\
    outcome (ask solve pinv QCC ab) = Ok (AVec C) /\
    outcome (ask solve pinv QGrav ab) = Ok (AVec G) /\
    outcome (ask solve pinv (QExt fe) ab) = Ok (AVec E) /\
    let rigid_part := vec (ab_dof ab) (fun i =>
         over_links ab (fun j => entry A i j * coef ddq j) + (if o_cc o then coef C i else 0) +
         (if o_grav o then coef G i else 0) + coef E i) in
    outcome (ask solve pinv (QID ddq fe o) ab) = Ok (AVec tau) /\
    (o_fric o = false -> tau = rigid_part) /\
    (o_fric o = true -> exists F, Friction ab rigid_part true (o_stic o) = Ok F /\
                                  tau = vec (ab_dof ab) (fun i => coef rigid_part i + coef F i)).
Proof.
  intros R B P Hl. assert (AC : AddComm S) by apply laws_comm. destruct (reached_wfc _ _ _ _ R B) as [T W].
  cbn [ask]. rewrite !outcome_wrap, (out_Inertia ab T W), (out_CC ab T W), (out_Grav ab T W), (out_Ext ab T W), (out_ID ab T W) by auto.
  rewrite Hl, Nat.eqb_refl. cbn [bind]. do 5 eexists. do 4 (split; [reflexivity|]). cbn zeta. split; [reflexivity|].
  assert (E : forall i, (i < ab_dof ab)%nat -> id_base ab o ddq fe i = over_links ab (fun j => entry (mat (ab_dof ab) (ab_dof ab) (Av ab)) i j * coef ddq j) +
     (if o_cc o then coef (vec (ab_dof ab) (Cv ab)) i else 0) + (if o_grav o then coef (vec (ab_dof ab) (Gv ab)) i else 0) + coef (vec (ab_dof ab) (Extv ab fe)) i).
  { intros i Hi. unfold id_base, mat_vec, over_links. rewrite total_ksum, !coef_vec by auto. do 3 f_equal. apply ksum_ext. intros j Hj.
    rewrite entry_mat by auto. reflexivity. }
  split; intros Ho; unfold plus_friction; rewrite Ho.
  - apply vec_ext. auto.
  - eexists. split.
    { unfold Friction. rewrite vec_length, Nat.ltb_irrefl. reflexivity. }
    apply vec_ext. intros i Hi. rewrite !coef_vec by auto. unfold friction_arr. rewrite E, qk_vec, !coef_vec by auto. reflexivity.
Qed.

(** C12 *)
Lemma jac_point ab k j off : tree_ok ab -> (k < ab_dof ab)%nat -> (j < ab_dof ab)%nat -> rigid_robot ab ->
  jacv ab k off j = if ancb ab j k then Mot (v3add (mlin (Sw ab j)) (v3cross (mang (Sw ab j)) (iso_app (twv ab k) off))) (mang (Sw ab j)) else mzero.
Proof.
  intros T Hk Hj R. rewrite jacv_at by auto. unfold ancb. destruct (existsb _ _); auto. unfold jac_col, Sw.
  unfold mact. cbn [rot tra]. f_equal. generalize (m3mulv (rot (twv ab j)) (mlin (sub_at ab j))) (m3mulv (rot (twv ab j)) (mang (sub_at ab j))) (iso_app (twv ab k) off).
  intros a b c. cbn [mlin mang]. vring.
Qed.
Lemma kinetic_eq X B a b : mdot a (imul (iact X B) b) =
  kinetic (rot X) B (Mot (v3add (mlin a) (v3cross (mang a) (iso_app X (icom B)))) (mang a))
                    (Mot (v3add (mlin b) (v3cross (mang b) (iso_app X (icom B)))) (mang b)).
Proof.
  unfold kinetic, iact. rewrite <- !m3mulv_mul.
  replace (m3mul (rot X) (m3mul (iI B) (m3tr (rot X)))) with (m3mul (m3mul (rot X) (iI B)) (m3tr (rot X))) by apply m3mul_assoc.
  generalize (m3mul (m3mul (rot X) (iI B)) (m3tr (rot X))) (iso_app X (icom B)). intros M c. unfold mdot, imul. cbn [imass icom iI mlin mang flin fang].
  vring.
Qed.

Lemma kinetic_0_l X B b : kinetic X B mzero b = 0.
Proof. unfold kinetic. vring. Qed.
Lemma kinetic_0_r X B a : kinetic X B a mzero = 0.
Proof. unfold kinetic. vring. Qed.
Lemma kinetic_add_l X B a a' b : kinetic X B (madd a a') b = kinetic X B a b + kinetic X B a' b.
Proof. unfold kinetic. vring. Qed.
Lemma kinetic_scale_l X B k a b : kinetic X B (mscale k a) b = k * kinetic X B a b.
Proof. unfold kinetic. vring. Qed.
Lemma kinetic_add_r X B a b b' : kinetic X B a (madd b b') = kinetic X B a b + kinetic X B a b'.
Proof. unfold kinetic. vring. Qed.
Lemma kinetic_scale_r X B k a b : kinetic X B a (mscale k b) = k * kinetic X B a b.
Proof. unfold kinetic. vring. Qed.

Lemma bodies_act ab X i x y : proper ab -> (i < ab_dof ab)%nat -> rigid X ->
  mdot x (imul (iact X (inertia_at ab i)) y) = total (map (fun B => mdot x (imul (iact X B) y)) (bodies_on ab i)).
Proof.
  intros P Hi RX. rewrite imul_act', mdot_act_r, bodies_mul by auto. apply total_ext. intros B _.
  rewrite imul_act', mdot_act_r by auto. auto.
Qed.
Lemma total_zero {A} (f : A -> K) l : (forall x, In x l -> f x = 0) -> total (map f l) = 0.
Proof. unfold total. induction l as [|x l IH]; cbn; intros H; auto. rewrite H, IH by auto. ring. Qed.
Lemma total_add {A} (f g : A -> K) l : total (map (fun x => f x + g x) l) = total (map f l) + total (map g l).
Proof. unfold total. induction l as [|x l IH]; cbn; [ring|]. rewrite IH. ring. Qed.
Lemma total_scale {A} c (f : A -> K) l : total (map (fun x => c * f x) l) = c * total (map f l).
Proof. unfold total. induction l as [|x l IH]; cbn; [ring|]. rewrite IH. ring. Qed.
Lemma total_swap {A B} (f : A -> B -> K) l m :
  total (map (fun x => total (map (f x) m)) l) = total (map (fun y => total (map (fun x => f x y) l)) m).
Proof.
  induction l as [|x l IH].
  - cbn. symmetry. apply total_zero. auto.
  - cbn [map]. change (total (map (f x) m) + total (map (fun x => total (map (f x) m)) l) = total (map (fun y => f x y + total (map (fun x => f x y) l)) m)).
    rewrite IH, total_add. auto.
Qed.

Definition Jall (ab : body) (k : nat) (off : v3) : list motion := vec (ab_dof ab) (jacv ab k off).
Definition Oall (ab : body) (k : nat) : m3 := rot (twv ab k).
Definition Pall (ab : body) (k : nat) (off : v3) : v3 := iso_app (twv ab k) off.
Lemma Jall_ok ab : tree_ok ab -> jacobians ab (Jall ab).
Proof. intros T k off Hk. rewrite Jacobian_q_stored, idx_nat by auto. auto. Qed.
Lemma Oall_ok ab : tree_ok ab -> orientations ab (Oall ab).
Proof. intros T k Hk. rewrite orientation_stored, idx_nat by auto. auto. Qed.
Lemma Pall_ok ab : tree_ok ab -> positions ab (Pall ab).
Proof. intros T k off Hk. rewrite position_stored, idx_nat by auto. auto. Qed.
Lemma col_Jall ab k off j : tree_ok ab -> rigid_robot ab -> (k < ab_dof ab)%nat -> (j < ab_dof ab)%nat ->
  col (Jall ab k off) j = if ancb ab j k then Mot (v3add (mlin (Sw ab j)) (v3cross (mang (Sw ab j)) (Pall ab k off))) (mang (Sw ab j)) else mzero.
Proof. intros T R Hk Hj. unfold col, Jall. rewrite nth_vec by auto. apply jac_point; auto. Qed.

Lemma square_mat n f : square n (mat n n f).
Proof.
  split; [unfold mat; rewrite map_length, seq_length; auto|]. apply Forall_forall. intros r Hr. unfold mat in Hr.
  apply in_map_iff in Hr. destruct Hr as (i & <- & _). apply vec_length.
Qed.
Lemma Av_bodies ab i j : tree_ok ab -> proper ab -> (i < ab_dof ab)%nat -> (j < ab_dof ab)%nat ->
  Av ab i j = over_bodies ab (fun k B => kinetic (Oall ab k) B (col (Jall ab k (icom B)) i) (col (Jall ab k (icom B)) j)).
Proof.
  intros T P Hi Hj. rewrite (A_world ab T (pr_rigid _ P) (proper_mass _ P) (proper_sym _ P)) by auto.
  unfold over_bodies, over_links. rewrite total_ksum. apply ksum_ext. intros k Hk.
  destruct (ancb ab i k) eqn:Ei; [destruct (ancb ab j k) eqn:Ej|]; cbn [andb].
  - unfold Iw. rewrite bodies_act by (auto; apply twv_rigid; auto; apply P). apply total_ext. intros B _.
    rewrite kinetic_eq. rewrite !col_Jall, Ei, Ej by (auto; apply P). reflexivity.
  - symmetry. apply total_zero. intros B _. rewrite (col_Jall ab k _ j), Ej by (auto; apply P). apply kinetic_0_r.
  - symmetry. apply total_zero. intros B _. rewrite (col_Jall ab k _ i), Ei by (auto; apply P). apply kinetic_0_l.
Qed.
Lemma velocity_l X B J x b : kinetic X B (velocity J x) b = total (map (fun j => coef x j * kinetic X B (col J j) b) (seq 0 (List.length J))).
Proof.
  unfold velocity. induction (seq 0 (List.length J)) as [|j l IH]; cbn; [apply kinetic_0_l|].
  rewrite kinetic_add_l, kinetic_scale_l, IH. reflexivity.
Qed.
Lemma velocity_r X B J x b : kinetic X B b (velocity J x) = total (map (fun j => coef x j * kinetic X B b (col J j)) (seq 0 (List.length J))).
Proof.
  unfold velocity. induction (seq 0 (List.length J)) as [|j l IH]; cbn; [apply kinetic_0_r|].
  rewrite kinetic_add_r, kinetic_scale_r, IH. reflexivity.
Qed.
Lemma jall_length ab k off : List.length (Jall ab k off) = ab_dof ab.
Proof. apply vec_length. Qed.
Lemma over_bodies_ext ab f g : (forall k B, (k < ab_dof ab)%nat -> In B (bodies_on ab k) -> f k B = g k B) -> over_bodies ab f = over_bodies ab g.
Proof.
  intros H. unfold over_bodies, over_links. apply total_ext. intros k Hk. apply in_seq in Hk. apply total_ext. intros B HB. apply H; auto. lia.
Qed.
Lemma over_bodies_scale ab c f : over_bodies ab (fun k B => c * f k B) = c * over_bodies ab f.
Proof.
  unfold over_bodies, over_links. rewrite <- total_scale. apply total_ext. intros k _. apply total_scale.
Qed.
Lemma over_bodies_total ab {A} (f : A -> nat -> inertia -> K) l :
  over_bodies ab (fun k B => total (map (fun x => f x k B) l)) = total (map (fun x => over_bodies ab (f x)) l).
Proof.
  unfold over_bodies, over_links. rewrite total_swap. apply total_ext. intros k _.
  apply (total_swap (fun B x => f x k B)).
Qed.

Lemma c12 h ab : reached solve pinv h ab -> base_fixed false h = true -> proper ab ->
  exists J O A, jacobians ab J /\ orientations ab O /\ outcome (ask solve pinv QInertia ab) = Ok (AMat A) /\
    square (ab_dof ab) A /\
    (forall i j, (i < ab_dof ab)%nat -> (j < ab_dof ab)%nat ->
       entry A i j = over_bodies ab (fun k B => kinetic (O k) B (col (J k (icom B)) i) (col (J k (icom B)) j)) /\
       entry A i j = entry A j i /\
       (forall pi pj, is_path (requested_parent (accepted h)) pi i -> is_path (requested_parent (accepted h)) pj j ->
          ~ In i pj -> ~ In j pi -> entry A i j = 0)) /\
    (forall x y, List.length x = ab_dof ab -> List.length y = ab_dof ab ->
       quad A x y = over_bodies ab (fun k B => kinetic (O k) B (velocity (J k (icom B)) x) (velocity (J k (icom B)) y))).
Proof.
  intros R B P. assert (AC : AddComm S) by apply laws_comm. destruct (reached_wfc _ _ _ _ R B) as [T W].
  exists (Jall ab), (Oall ab), (mat (ab_dof ab) (ab_dof ab) (Av ab)).
  split; [apply Jall_ok; auto|]. split; [apply Oall_ok; auto|].
  cbn [ask]. rewrite outcome_wrap, (out_Inertia ab T W). split; [reflexivity|]. split; [apply square_mat|]. split.
  - intros i j Hi Hj. rewrite !entry_mat by auto. split; [apply Av_bodies; auto|].
    pose proof (A_world ab T (pr_rigid _ P) (proper_mass _ P) (proper_sym _ P)) as AW. split.
    + rewrite !AW by auto. apply ksum_ext. intros k Hk. rewrite andb_comm. destruct (_ && _); auto.
      apply imul_sym, isym_act. apply (proper_sym _ P); auto.
    + intros pi pj Pi Pj Ni Nj. rewrite AW by auto. apply ksum_zero. intros k Hk.
      destruct (ancb ab i k) eqn:Ei, (ancb ab j k) eqn:Ej; auto. exfalso.
      rewrite (is_path_unique _ _ _ _ Pi (reached_path solve pinv h ab i R Hi)) in Nj.
      rewrite (is_path_unique _ _ _ _ Pj (reached_path solve pinv h ab j R Hj)) in Ni.
      destruct (ancb_total ab T i j k Hk Ei Ej) as [X|X]; apply ancb_in in X; tauto.
  - intros x y Hx Hy. unfold quad. rewrite Hx.
    transitivity (total (map (fun i => total (map (fun j => over_bodies ab (fun k B0 => coef x i * (coef y j * kinetic (Oall ab k) B0 (col (Jall ab k (icom B0)) i) (col (Jall ab k (icom B0)) j)))) (seq 0 (ab_dof ab)))) (seq 0 (ab_dof ab)))).
    + apply total_ext. intros i Hi. apply in_seq in Hi. rewrite <- total_scale. apply total_ext. intros j Hj. apply in_seq in Hj.
      rewrite entry_mat by lia. rewrite Av_bodies by (auto; lia). rewrite !over_bodies_scale. ring.
    + symmetry. rewrite (over_bodies_ext ab _ (fun k B0 => total (map (fun i => total (map (fun j => coef x i * (coef y j * kinetic (Oall ab k) B0 (col (Jall ab k (icom B0)) i) (col (Jall ab k (icom B0)) j))) (seq 0 (ab_dof ab)))) (seq 0 (ab_dof ab))))).
      * rewrite over_bodies_total. apply total_ext. intros i _. rewrite over_bodies_total. auto.
      * intros k B0 Hk _. rewrite velocity_l, jall_length. apply total_ext. intros i _. rewrite velocity_r, jall_length, <- total_scale. auto.
Qed.

(** ** Gravity, base, loads along a history *)
Lemma step_env o ab ab' : step solve pinv o ab = Some ab' ->
  ab_g ab' = (match o with OSetG g => Mot g v3zero | _ => ab_g ab end) /\
  ab_Tbase ab' = (match o with OSetBase X => X | _ => ab_Tbase ab end) /\
  ab_loads ab' = (match o with
    | OAddLoad Ia z => let k := to_size (norm_idx (ab_dof ab) z) in
        map_set (ab_loads ab) k (Some (match ab_loads ab k with None => Ia | Some J => iadd J Ia end))
    | OReplaceLoad Ia z => map_set (ab_loads ab) (to_size (norm_idx (ab_dof ab) z)) (Some Ia)
    | OClearLoad z => map_set (ab_loads ab) (to_size (norm_idx (ab_dof ab) z)) None
    | _ => ab_loads ab end).
Proof.
  destruct o; cbn [step].
  - destruct (add_rigid_body rb p ab) as [b i|b|] eqn:E; intros H; inversion H; subst.
    + apply add_fields in E. tauto.
    + apply add_exn in E. subst; auto.
  - destruct (set_q q ab) as [b []|b|] eqn:E; intros H; inversion H; subst.
    + unfold set_q in E. destruct (negb _); [discriminate|]. destruct (negb _); [discriminate|]. destruct (veqb _ _); inversion E; auto.
    + apply set_q_exn in E. subst; auto.
  - destruct (set_dq dq ab) as [b []|b|] eqn:E; intros H; inversion H; subst.
    + unfold set_dq in E. destruct (negb _); [discriminate|]. destruct (negb _); [discriminate|]. destruct (veqb _ _); inversion E; auto.
    + apply set_dq_exn in E. subst; auto.
  - intros H; inversion H; subst. auto.
  - unfold add_load, set_loads. destruct (ab_cache ab); intros H; inversion H; subst; auto.
  - unfold replace_load, set_loads. destruct (ab_cache ab); intros H; inversion H; subst; auto.
  - unfold clear_load, set_loads. destruct (ab_cache ab); intros H; inversion H; subst; auto.
  - intros H; inversion H; subst. auto.
  - unfold set_inertia_base. destruct (klt _ _); cbn; intros H; inversion H; subst; auto.
  - unfold body_copy. destruct (ab_cache ab); intros H; inversion H; subst; auto.
  - destruct (integrate _ _ _ _) eqn:E; intros H; inversion H; subst.
    revert E. apply (integrate_ind (fun b => ab_g b = ab_g ab /\ ab_Tbase b = ab_Tbase ab /\ ab_loads b = ab_loads ab)); auto.
    + intros a0 a' x Ta Ha. apply (sim_fd_frame solve pinv) in Ha. destruct Ha as [c ->]. exact Ta.
    + intros a0 a' q dq Ta Ha. apply put_inv in Ha. destruct Ha as (q' & ab1 & dq' & E1 & E2).
      unfold set_q in E1. destruct (negb _); [discriminate|]. destruct (negb _); [discriminate|].
      unfold set_dq in E2. destruct (negb _); [discriminate|]. destruct (negb _); [discriminate|].
      destruct (veqb _ q'), (veqb _ dq'); inversion E1; subst; inversion E2; subst; exact Ta.
  - destruct (ask solve pinv q ab) as [[b x]| |] eqn:E; try discriminate.
    + intros H; inversion H; subst. apply ask_frame in E. destruct E as [c ->]. auto.
    + destruct q; try (intros H; inversion H; subst; auto; fail).
      destruct (q_ops_InverseDynamics _ _ _ _ _ _ _ _ _) as [[b x]| |] eqn:E2; try discriminate.
      intros H; inversion H; subst.
      match type of E2 with q_ops_InverseDynamics _ _ ?J ?d ?N ?f ?e ?oo _ = _ =>
        destruct (ask_frame solve pinv (QoID J d N f e oo) ab ab' (let '(N', x') := x in ANull N' x')) as [c ->] end; auto.
      cbn. rewrite E2. destruct x; reflexivity.
Qed.
Lemma reached_g h ab : reached solve pinv h ab -> mang (ab_g ab) = v3zero.
Proof.
  intros (nm & mem & R). assert (X : forall h ab ab', mang (ab_g ab) = v3zero -> run solve pinv h ab = Some ab' -> mang (ab_g ab') = v3zero).
  { clear. induction h as [|o h IH]; cbn; intros ab ab' E H; [inversion H; subst; auto|].
    destruct (step solve pinv o ab) as [b|] eqn:Es; [|discriminate]. apply (IH b ab'); auto.
    apply step_env in Es. destruct Es as (-> & _). destruct o; auto. }
  eapply X; [|exact R]. cbn [body_new ab_g mang]. generalize (klit (-981)%Z 100). vring.
Qed.

(** C15 *)
Lemma c15 h ab : reached solve pinv h ab -> base_fixed false h = true -> proper ab ->
  exists J G, jacobians ab J /\ outcome (ask solve pinv QGrav ab) = Ok (AVec G) /\ List.length G = ab_dof ab /\
    forall i, (i < ab_dof ab)%nat ->
      coef G i = - over_bodies ab (fun k B => imass B * v3dot (mlin (ab_g ab)) (mlin (col (J k (icom B)) i))).
Proof.
  intros R B P. assert (AC : AddComm S) by apply laws_comm. destruct (reached_wfc _ _ _ _ R B) as [T W].
  pose proof (reached_g _ _ R) as GA.
  exists (Jall ab), (vec (ab_dof ab) (Gv ab)). split; [apply Jall_ok; auto|]. cbn [ask]. rewrite outcome_wrap, (out_Grav ab T W).
  split; [reflexivity|]. split; [apply vec_length|]. intros i Hi. rewrite coef_vec by auto.
  unfold Gv. rewrite (back_world ab T (pr_rigid _ P)) by auto. unfold over_bodies, over_links. rewrite total_ksum, <- ksum_opp.
  apply ksum_ext. intros k Hk. destruct (ancb ab i k) eqn:Ei.
  - assert (RX : rigid (twv ab k)) by (apply twv_rigid; auto; apply P).
    unfold grav_f0. rewrite <- imul_act by auto. rewrite mact_inv_r by auto. rewrite bodies_act by auto.
    match goal with |- _ = - ?x => replace (- x) with ((- (1)) * x) by ring end. rewrite <- total_scale. apply total_ext. intros B0 _.
    rewrite kinetic_eq, col_Jall, Ei by (auto; apply P). fold (Pall ab k (icom B0)). unfold kinetic. cbn [mlin mang mopp].
    rewrite GA. generalize (mlin (Sw ab i)) (mang (Sw ab i)) (mlin (ab_g ab)) (Pall ab k (icom B0)) (rot (twv ab k)) (iI B0). vring.
  - rewrite total_zero; [ring|]. intros B0 _. rewrite col_Jall, Ei by (auto; apply P). cbn [mlin mzero]. generalize (mlin (ab_g ab)). vring.
Qed.

(** C16 *)
Lemma c16 h ab fe : reached solve pinv h ab -> base_fixed false h = true -> rigid_robot ab ->
  exists J X E, jacobians ab J /\ positions ab X /\ outcome (ask solve pinv (QExt fe) ab) = Ok (AVec E) /\ List.length E = ab_dof ab /\
    forall i (off : nat -> v3), (i < ab_dof ab)%nat ->
      coef E i = - over_links ab (fun k => match fe k with
                                           | Some f => power_at (X k (off k)) f (col (J k (off k)) i)
                                           | None => 0
                                           end).
Proof.
  intros R B P. assert (AC : AddComm S) by apply laws_comm. destruct (reached_wfc _ _ _ _ R B) as [T W].
  exists (Jall ab), (Pall ab), (vec (ab_dof ab) (Extv ab fe)). split; [apply Jall_ok; auto|]. split; [apply Pall_ok; auto|].
  cbn [ask]. rewrite outcome_wrap, (out_Ext ab T W).
  split; [reflexivity|]. split; [apply vec_length|]. intros i off Hi. rewrite coef_vec by auto.
  unfold Extv. rewrite (back_world ab T P) by auto. unfold over_links. rewrite total_ksum, <- ksum_opp.
  apply ksum_ext. intros k Hk. unfold ext_f0. destruct (fe k) as [f|].
  - rewrite fact_inv_r by (apply twv_rigid; auto). rewrite col_Jall by auto. destruct (ancb ab i k).
    + unfold power_at. cbn [mlin mang]. generalize (Sw ab i) (Pall ab k (off k)). vring.
    + unfold power_at. generalize (Pall ab k (off k)). vring.
  - rewrite fact_zero, mdot_zero_r. destruct (ancb ab i k); ring.
Qed.

(** C17 *)
Lemma list_coef_ext n (x y : list K) : List.length x = n -> List.length y = n -> (forall i, (i < n)%nat -> coef x i = coef y i) -> x = y.
Proof. intros Hx Hy H. apply (nth_ext x y 0 0); [congruence|]. intros i Hi. apply H. lia. Qed.
Lemma id_base_sum ab o ddq fe i : (i < ab_dof ab)%nat -> id_base ab o ddq fe i =
  row_times (ab_dof ab) (mat (ab_dof ab) (ab_dof ab) (Av ab)) ddq i + ((if o_cc o then Cv ab i else 0) + (if o_grav o then Gv ab i else 0) + Extv ab fe i).
Proof.
  intros Hi. unfold id_base, mat_vec, row_times. rewrite total_ksum.
  rewrite (ksum_ext _ _ (fun j => entry (mat (ab_dof ab) (ab_dof ab) (Av ab)) i j * coef ddq j)).
  - ring.
  - intros j Hj. rewrite entry_mat by auto. reflexivity.
Qed.
Lemma row_times_sub n A x y i : row_times n A (vec n (fun j => coef x j - coef y j)) i = row_times n A x i - row_times n A y i.
Proof.
  unfold row_times. rewrite !total_ksum. replace (ksum n (fun j => entry A i j * coef x j) - ksum n (fun j => entry A i j * coef y j)) with
   (ksum n (fun j => entry A i j * coef x j) + (- (1)) * ksum n (fun j => entry A i j * coef y j)) by ring.
  rewrite <- ksum_scale, <- ksum_add. apply ksum_ext. intros j Hj. rewrite coef_vec by auto. ring.
Qed.
Lemma c17 h ab fe o : reached solve pinv h ab -> base_fixed false h = true -> proper ab -> o_fric o = false ->
  exists A, outcome (ask solve pinv QInertia ab) = Ok (AMat A) /\
    (solver_ok solve (ab_dof ab) A ->
     (forall tau, List.length tau = ab_dof ab -> exists ddq,
        outcome (ask solve pinv (QFD tau fe o) ab) = Ok (AVec ddq) /\
        outcome (ask solve pinv (QID ddq fe o) ab) = Ok (AVec tau)) /\
     (injective (ab_dof ab) A -> forall ddq, List.length ddq = ab_dof ab -> exists tau,
        outcome (ask solve pinv (QID ddq fe o) ab) = Ok (AVec tau) /\
        outcome (ask solve pinv (QFD tau fe o) ab) = Ok (AVec ddq))).
Proof.
  intros R B P Ho. assert (AC : AddComm S) by apply laws_comm. destruct (reached_wfc _ _ _ _ R B) as [T W].
  eexists. cbn [ask]. rewrite outcome_wrap, (out_Inertia ab T W). split; [reflexivity|]. intros SO. split.
  - intros tau Ht. eexists. split.
    + rewrite outcome_wrap, (out_FD ab T W), Ht, Nat.eqb_refl by auto. reflexivity.
    + destruct (SO (vec (ab_dof ab) (fd_rhs ab tau fe o))) as [Hl Hs]; [apply vec_length|].
      rewrite outcome_wrap, (out_ID ab T W), Hl, Nat.eqb_refl by auto. cbn [bind]. do 2 f_equal.
      apply (list_coef_ext (ab_dof ab)); auto; [apply vec_length|]. intros i Hi. rewrite coef_vec by auto.
      unfold plus_friction. rewrite Ho. rewrite id_base_sum, Hs, coef_vec by auto. unfold fd_rhs. rewrite Ho. cbn zeta. change (qk tau i) with (coef tau i). ring.
  - intros In ddq Hd. eexists. split.
    + rewrite outcome_wrap, (out_ID ab T W), Hd, Nat.eqb_refl by auto. reflexivity.
    + rewrite outcome_wrap, (out_FD ab T W), vec_length, Nat.eqb_refl by auto. cbn [bind]. do 2 f_equal.
      match goal with |- solve ?A ?b = _ => destruct (SO b) as [Hl Hs]; [apply vec_length|] end.
      apply (list_coef_ext (ab_dof ab)); auto. intros i Hi.
      match goal with |- ?a = ?b => cut (a - b = 0); [intros E; replace b with (a - (a - b)) by ring; rewrite E; ring|] end.
      match goal with |- coef ?x i - coef ?y i = _ => specialize (In (vec (ab_dof ab) (fun j => coef x j - coef y j))) end.
      rewrite <- (coef_vec (ab_dof ab) (fun j => coef _ j - coef _ j)) by auto. apply In; auto; [apply vec_length|].
      intros k Hk. rewrite row_times_sub, Hs, coef_vec by auto. unfold fd_rhs. rewrite Ho. cbn zeta.
      rewrite qk_vec by auto. unfold plus_friction. rewrite Ho, id_base_sum by auto. ring.
Qed.

(** C29, for robots that have been asked before *)
Lemma c29_warm {E : EqSound S} h ab mem q : reached solve pinv h ab -> base_fixed false h = true ->
  (pose_query q || jacobian_query q || dynamics_query q = true \/ proper ab /\ eom_query q = true) ->
  outcome (ask solve pinv q ab) = outcome (ask solve pinv q (cold (absorb ab) mem)).
Proof.
  intros R B Q. assert (AC : AddComm S) by apply laws_comm.
  assert (SL : sees_load q = true) by (destruct Q as [Q|[_ Q]]; destruct q; auto; discriminate Q).
  rewrite <- (c29_equiv solve pinv ab mem q (tree_reached solve pinv h ab R) SL).
  destruct Q as [Q|[P Q]].
  - apply orb_true_iff in Q. destruct Q as [Q|Q]; [apply orb_true_iff in Q; destruct Q as [Q|Q]|].
    + apply c03_pose with h; auto.
    + apply c03_jac_exact with h; auto.
    + apply c04 with h; auto.
  - apply c05 with h; auto.
Qed.
End DynApi.
