(** Proofs about functions of the Python module (C65). *)
From Coq Require Import List Arith ZArith Bool String Ascii Lia Field.
From Verif Require Import Scalar Base Spatial Joint Body Kin InvDyn FwdDyn Opspace OpspaceAba Deriv Sim Ops Matlab PyFuns Specs SpecCache SpecKin SpecDyn SpecOps SpecControl SpecMatlab SpecPy
  TreeProofs JointProofs CacheProofs CacheOps KinProofs BigSum DynProofs DynApi OpsCache OpsApi OpsAlg OpsTask ControlProofs MatlabProofs.
Import ListNotations.
Local Open Scope nat_scope.

Lemma pair_dec (a b : nat * nat) : {a = b} + {a <> b}.
Proof. decide equality; apply Nat.eq_dec. Qed.

Section Mem.
Context {S : Scal}.
Variable solve : list (list K) -> list K -> list K.
Variable pinv : list (list K) -> K -> list (list K) * bool.

Lemma save_beside (v : view) A l : forall m a, (forall j i, In (j, i) l -> addr v i j <> a) ->
  fold_left (fun m '(j, i) => poke m (addr v i j) (ent A i j)) l m a = m a.
Proof.
  induction l as [|[j i] l IH]; intros m a H; [reflexivity|]. cbn [fold_left]. rewrite IH by (intros; apply H; right; auto).
  unfold poke. specialize (H j i (or_introl eq_refl)). destruct (Z.eqb_spec a (addr v i j)); [congruence|reflexivity].
Qed.
Lemma save_at (v : view) A l : forall m i j, In (j, i) l -> (forall j' i', In (j', i') l -> addr v i' j' = addr v i j -> i' = i /\ j' = j) ->
  fold_left (fun m '(j, i) => poke m (addr v i j) (ent A i j)) l m (addr v i j) = ent A i j.
Proof.
  induction l as [|[j0 i0] l IH]; intros m i j H U; [destruct H|]. cbn [fold_left].
  destruct (in_dec pair_dec (j, i) l) as [X|X].
  - apply IH; [exact X|]. intros; apply U; [right|]; auto.
  - destruct H as [H|H]; [|tauto]. inversion H; subst. rewrite save_beside.
    + unfold poke. rewrite Z.eqb_refl. reflexivity.
    + intros j' i' Hin E. destruct (U j' i' (or_intror Hin) E); subst. tauto.
Qed.
Lemma save_holds v A m : separate v -> holds v (save v A m) A /\ forall a, beside v a -> save v A m a = m a.
Proof.
  intros U. split.
  - intros i j Hi Hj. apply save_at; [apply in_prod; apply in_seq; lia|]. intros j' i' H E. apply in_prod_iff in H. destruct H as [H1 H2]. apply in_seq in H1, H2.
    apply U; auto; lia.
  - intros a Ha. apply save_beside. intros j i H. apply in_prod_iff in H. destruct H as [H1 H2]. apply in_seq in H1, H2. apply Ha; lia.
Qed.
Lemma list_ext {A} (d : A) (l l' : list A) : List.length l = List.length l' -> (forall i, i < List.length l -> nth i l d = nth i l' d) -> l = l'.
Proof. intros H E. apply (nth_ext l l' d d H E). Qed.
Lemma sized_ext r c A B : sized r c A -> sized r c B -> (forall i j, i < r -> j < c -> entry A i j = entry B i j) -> A = B.
Proof.
  intros [LA FA] [LB FB] E. apply (list_ext (@nil K)); [congruence|]. intros i Hi. rewrite Forall_forall in FA, FB.
  assert (A1 : List.length (nth i A nil) = c) by (apply FA, nth_In; lia). assert (B1 : List.length (nth i B nil) = c) by (apply FB, nth_In; lia).
  apply (list_ext k0); [congruence|]. intros j Hj. apply E; lia.
Qed.
Lemma mat_sized r c f : sized r c (@mat K r c f).
Proof.
  split; [apply mat_length|]. unfold mat. apply Forall_forall. intros x Hx. apply in_map_iff in Hx. destruct Hx as (i & <- & _). apply vec_length.
Qed.
Lemma load_holds n v m A : square_array n v -> sized n n A -> holds v m A -> load v m = A.
Proof.
  intros [E1 E2] SA H. unfold load. rewrite E2. destruct n as [|n].
  - destruct SA as [SA _]. destruct A; [reflexivity|discriminate].
  - rewrite E1. apply (sized_ext (Datatypes.S n) (Datatypes.S n)); [apply mat_sized|auto|]. intros i j Hi Hj. unfold entry. change (nth j (nth i (mat (Datatypes.S n) (Datatypes.S n) (fun i j => m (addr v i j))) nil) k0) with (ent (mat (Datatypes.S n) (Datatypes.S n) (fun i j => m (addr v i j))) i j).
    rewrite ent_mat by auto. apply H; lia.
Qed.
Lemma dof_ops J ddx N fe b o (ab ab' : body) x : q_ops_InverseDynamics solve pinv J ddx N fe b o ab = Ok (ab', x) -> ab_dof ab' = ab_dof ab.
Proof.
  intros E. destruct x as [N' t]. destruct (ask_frame solve pinv (QoID J ddx N fe b o) ab ab' (ANull N' t)) as [c ->]; [cbn [ask]; rewrite E; reflexivity|reflexivity].
Qed.
(** The matrix returned has the right shape. *)
Lemma oid_sized J ddx N fe b o (ab ab' : body) N' t : q_ops_InverseDynamics solve pinv J ddx (Some N) fe b o ab = Ok (ab', (N', t)) ->
  exists M, N' = Some M /\ sized (ab_dof ab) (ab_dof ab) M.
Proof.
  intros E. assert (A : ask solve pinv (QoID J ddx (Some N) fe b o) ab = Ok (ab', ANull N' t)) by (cbn [ask]; rewrite E; reflexivity).
  destruct (oid_form _ _ _ _ _ _ _ _ _ _ _ _ A) as (F & Jb & -> & -> & _). eexists. split; [reflexivity|]. destruct N; apply mat_sized.
Qed.
Lemma c65_nullspace J ddx v A fe b o m (ab : body) : square_array (ab_dof ab) v -> separate v -> sized (ab_dof ab) (ab_dof ab) A -> holds v m A ->
  match ask solve pinv (QoID J ddx (Some A) fe b o) ab with
  | Ok (ab', ANull (Some N) tau) => exists m', py_ops_id solve pinv J ddx (NView v) fe b o m ab = Ok (ab', (m', tau)) /\ holds v m' N /\ forall a, beside v a -> m' a = m a
  | Ok _ => False
  | Throw => py_ops_id solve pinv J ddx (NView v) fe b o m ab = Throw
  | UB => py_ops_id solve pinv J ddx (NView v) fe b o m ab = UB
  end.
Proof.
  intros SQ U SA H. unfold py_ops_id. cbn [ask]. unfold wrap. rewrite (load_holds _ _ _ _ SQ SA H). change (@Some (list (list K)) A) with (@Some lmat A).
  match goal with |- context [bind (q_ops_InverseDynamics ?a ?b ?c ?d ?e ?f ?g ?h ?i) _] => destruct (q_ops_InverseDynamics a b c d e f g h i) as [[ab' [N t]]| |] eqn:E end; unfold wrap; cbn [bind]; [|reflexivity..].
  destruct (oid_sized _ _ _ _ _ _ _ _ _ _ E) as (M & -> & _). rewrite (dof_ops _ _ _ _ _ _ _ _ _ E). destruct SQ as [E1 E2]. rewrite E1, E2, Nat.eqb_refl. cbn [andb].
  eexists. split; [reflexivity|]. apply save_holds. exact U.
Qed.
Lemma c65_shape J ddx N fe b o m (ab : body) r : py_ops_id solve pinv J ddx N fe b o m ab = Ok r -> acceptable (ab_dof ab) N.
Proof.
  destruct N as [|v|A|]; cbn [py_ops_id acceptable]; [auto| | |discriminate].
  - destruct (q_ops_InverseDynamics solve pinv J ddx _ fe b o ab) as [[ab' [N t]]| |] eqn:E; try discriminate. cbn [bind]. rewrite (dof_ops _ _ _ _ _ _ _ _ _ E).
    destruct (Nat.eqb_spec (v_rows v) (ab_dof ab)); [|discriminate]. destruct (Nat.eqb_spec (v_cols v) (ab_dof ab)); [|discriminate]. split; auto.
  - destruct (q_ops_InverseDynamics solve pinv J ddx _ fe b o ab) as [[ab' [N t]]| |] eqn:E; try discriminate. cbn [bind]. rewrite (dof_ops _ _ _ _ _ _ _ _ _ E).
    unfold shape. destruct (Nat.eqb_spec (List.length A) (ab_dof ab)); [|discriminate]. destruct (forallb _ A) eqn:F; [|discriminate]. intros _. split; auto.
    apply Forall_forall. intros x Hx. rewrite forallb_forall in F. apply Nat.eqb_eq. auto.
Qed.
Lemma c65_pose link off (ab : body) q :
  match outcome (py_kin solve pinv (PyPosition off) link None ab), outcome (py_kin solve pinv PyOrientation link None ab), outcome (py_kin solve pinv (PyPose off) link None ab) with
  | Ok (AV3 x), Ok (AM3 R), Ok (AIso T) => rot T = R /\ tra T = x
  | UB, UB, UB => True
  | _, _, _ => False
  end /\ py_kin solve pinv (PyPose off) link (Some q) ab = UB.
Proof.
  split.
  - cbn [py_kin py_at_state ask]. rewrite !outcome_wrap, out_Pos, out_Ori, out_Pose. unfold q_T_to_world. rewrite outcome_on_cache. destruct (ab_cache ab) as [c|]; cbn; auto. destruct (idx _ _); cbn; auto.
  - cbn [py_kin py_at]. rewrite c31_pose. reflexivity.
Qed.

(** Hessian, integrate *)
Lemma c65_hessian link off (ab ab' : body) H : ask solve pinv (QHess link off) ab = Ok (ab', AHess H) ->
  exists f, py_hessian link off ab = Ok (ab', f) /\ forall i j k, i < ab_dof ab -> j < ab_dof ab -> k < 6 -> f i j k = six_of (nth j (nth i H nil) mzero) k.
Proof.
  intros E. destruct (ask_frame _ _ _ _ _ _ E) as [c Hc]. cbn [ask] in E. unfold py_hessian. destruct (q_Hessian link off ab) as [[a1 H1]| |]; try discriminate. cbn [wrap bind] in *. inversion E; subst a1 H1; clear E.
  eexists. split; [reflexivity|]. intros i j k Hi Hj Hk. replace (ab_dof ab') with (ab_dof ab) by (rewrite Hc; reflexivity). apply (flat_hess_entry (ab_dof ab) H i j k); auto.
Qed.
Lemma method_spec s w : method_of (lower s) = Some w <-> same_ci s (method_name w).
Proof.
  rewrite <- lower_same. unfold method_of. destruct (String.eqb_spec (lower s) "euler") as [E|N1]; [|destruct (String.eqb_spec (lower s) "heuns") as [E|N2]; [|destruct (String.eqb_spec (lower s) "rk4") as [E|N3]]].
  - rewrite E. destruct w; cbn; split; intros X; try discriminate X; auto.
  - rewrite E. destruct w; cbn; split; intros X; try discriminate X; auto.
  - rewrite E. destruct w; cbn; split; intros X; try discriminate X; auto.
  - destruct w; cbn; split; intros X; try discriminate X; contradiction.
Qed.
Lemma c65_integrate tau dt fe gravity cc friction limits method aba stiction (ab : body) :
  (forall w, same_ci method (method_name w) ->
     forall ab', py_integrate solve tau dt fe gravity cc friction limits method aba stiction ab = Ret ab' tt <->
       step solve pinv (OIntegrate aba tau fe (IdOpts gravity cc friction stiction) (IntOpts limits w) dt) ab = Some ab') /\
  ((forall w, ~ same_ci method (method_name w)) -> py_integrate solve tau dt fe gravity cc friction limits method aba stiction ab = Exn ab).
Proof.
  unfold py_integrate. split.
  - intros w Hw ab'. apply method_spec in Hw. rewrite Hw. cbn [step]. destruct (integrate _ _ _ _); split; intros X; inversion X; reflexivity.
  - intros Hn. destruct (method_of (lower method)) as [w|] eqn:E; [|reflexivity]. apply method_spec in E. destruct (Hn w E).
Qed.
End Mem.

Section Laws.
Context {S : Scal} {L : ScalLaws S}.
Variable solve : list (list K) -> list K -> list K.
Variable pinv : list (list K) -> K -> list (list K) * bool.
Lemma identity_lid n : identity n = lid n.
Proof. reflexivity. Qed.
(** An identity matrix does what no matrix does. *)
Lemma oid_identity J ddx fe b o (ab : body) : 0 < ab_dof ab ->
  q_ops_InverseDynamics solve pinv J ddx (Some (lid (ab_dof ab))) fe b o ab = q_ops_InverseDynamics solve pinv J ddx (Some nil) fe b o ab.
Proof.
  intros Hn. set (n := ab_dof ab) in *. unfold q_ops_InverseDynamics. destruct (negb _); [reflexivity|].
  destruct (lid n) as [|r M] eqn:EM; [reflexivity|]. rewrite <- EM. fold n. rewrite lid_shape. unfold with_J. fold n.
  destruct (shape (List.length J) n J) eqn:EJ; [|reflexivity]. unfold on_cache. destruct (ab_cache ab) as [c|]; [|reflexivity]. f_equal.
  unfold ops_inverse_dynamics. fold n. rewrite EM. rewrite <- EM. rewrite (lmul_lid (List.length J) n J (shape_sized _ _ EJ)).
  destruct (if b then _ else _) as [c1 F1]. destruct (if p_grav o then _ else _) as [c2 F2]. destruct (if p_cc o then _ else _) as [[c3 F3]| |]; [|reflexivity..]. cbn [bind].
  destruct (if p_fric o then _ else _) as [c4 F4]. rewrite (lmul_lid n n); [reflexivity|]. apply mat_sized.
Qed.
Lemma stack_step v : forall rest N m tau (ab : body), 0 < ab_dof ab -> square_array (ab_dof ab) v -> separate v -> sized (ab_dof ab) (ab_dof ab) N -> holds v m N ->
  match py_stack solve pinv (NView v) rest m tau ab with
  | Some (ab', (_, tau')) => control solve pinv rest N tau ab = Some (ab', tau')
  | None => control solve pinv rest N tau ab = None
  end.
Proof.
  induction rest as [|t rest IH]; intros N m tau ab Hn SQ U SN H; [reflexivity|]. cbn [py_stack control].
  pose proof (c65_nullspace solve pinv (t_J t) (t_ddx t) v N (t_fe t) (t_fe_empty t) (t_o t) m ab SQ U SN H) as X.
  destruct (ask solve pinv (QoID (t_J t) (t_ddx t) (Some N) (t_fe t) (t_fe_empty t) (t_o t)) ab) as [[ab' a]| |] eqn:E.
  - destruct a; try tauto. destruct N0 as [N1|]; [|tauto]. destruct X as (m' & -> & Hm & _).
    assert (D : ab_dof ab' = ab_dof ab) by (destruct (ask_frame _ _ _ _ _ _ E) as [c ->]; reflexivity).
    assert (SZ : sized (ab_dof ab') (ab_dof ab') N1).
    { rewrite D. cbn [ask] in E. apply wrap_inv in E. destruct E as (y & E & Ey). destruct y as [N2 t2]. cbn in Ey. inversion Ey; subst. destruct (oid_sized _ _ _ _ _ _ _ _ _ _ _ _ E) as (M & EM & SM). inversion EM; subst. exact SM. }
    apply IH; auto; [lia|rewrite D; exact SQ].
  - rewrite X. reflexivity.
  - rewrite X. reflexivity.
Qed.
Lemma c65_stack v m t rest tau (ab : body) : 0 < ab_dof ab -> square_array (ab_dof ab) v -> separate v -> holds v m (identity (ab_dof ab)) ->
  match py_stack solve pinv (NView v) (t :: rest) m tau ab with
  | Some (ab', (_, tau')) => control solve pinv (t :: rest) nil tau ab = Some (ab', tau')
  | None => control solve pinv (t :: rest) nil tau ab = None
  end.
Proof.
  intros Hn SQ U H. assert (SI : sized (ab_dof ab) (ab_dof ab) (lid (ab_dof ab))) by apply mat_sized.
  pose proof (stack_step v (t :: rest) (lid (ab_dof ab)) m tau ab Hn SQ U SI H) as X.
  replace (control solve pinv (t :: rest) nil tau ab) with (control solve pinv (t :: rest) (lid (ab_dof ab)) tau ab); [exact X|].
  cbn [control ask]. rewrite oid_identity by auto. reflexivity.
Qed.
(** An array of another type *)
Lemma oid_tau J ddx fe b o (ab : body) : 
  match q_ops_InverseDynamics solve pinv J ddx (Some nil) fe b o ab, q_ops_InverseDynamics solve pinv J ddx None fe b o ab with
  | Ok (_, (_, t)), Ok (_, (_, t')) => t = t'
  | Throw, Throw => True
  | UB, UB => True
  | _, _ => False
  end.
Proof.
  unfold q_ops_InverseDynamics. destruct (negb _); [exact I|]. unfold with_J. destruct (shape _ _ _); [|exact I]. unfold on_cache. destruct (ab_cache ab) as [c|]; [|exact I].
  unfold ops_inverse_dynamics. destruct (if b then _ else _) as [c1 F1]. destruct (if p_grav o then _ else _) as [c2 F2]. destruct (if p_cc o then _ else _) as [[c3 F3]| |]; [|exact I..]. cbn [bind].
  destruct (if p_fric o then _ else _) as [c4 F4]. reflexivity.
Qed.
Lemma c65_other J ddx fe b o m (ab : body) : 0 < ab_dof ab ->
  match py_ops_id solve pinv J ddx (NCopy (identity (ab_dof ab))) fe b o m ab with
  | Ok (_, (m', tau)) => m' = m /\ exists ab', py_ops_id solve pinv J ddx NNone fe b o m ab = Ok (ab', (m, tau))
  | r => py_ops_id solve pinv J ddx NNone fe b o m ab = r
  end.
Proof.
  intros Hn. cbn [py_ops_id]. rewrite identity_lid, oid_identity by auto. pose proof (oid_tau J ddx fe b o ab) as X.
  destruct (q_ops_InverseDynamics solve pinv J ddx (Some nil) fe b o ab) as [[a1 [N1 t1]]| |] eqn:E1; destruct (q_ops_InverseDynamics solve pinv J ddx None fe b o ab) as [[a2 [N2 t2]]| |] eqn:E2; try tauto; [|reflexivity..].
  subst t2. cbn [bind]. rewrite (dof_ops solve pinv _ _ _ _ _ _ _ _ _ E1), lid_shape. split; [auto|]. exists a2. reflexivity.
Qed.
End Laws.

(** Passing q is as good as setting it. *)
Section Kin.
Context {S : Scal} {L : ScalLaws S} {ES : EqSound S}.
Variable solve : list (list K) -> list K -> list K.
Variable pinv : list (list K) -> K -> list (list K) * bool.
Lemma fixed_set h q : forall b, base_fixed b (h ++ [OSetQ q]) = base_fixed b h.
Proof. induction h as [|o h IH]; intros b; [reflexivity|]. destruct o; cbn; rewrite ?IH; auto. Qed.
Lemma run_snoc h o : forall a b, run solve pinv h a = Some b -> run solve pinv (h ++ [o]) a = step solve pinv o b.
Proof. induction h as [|x h IH]; intros a b H; cbn [app run] in *; [inversion H; subst; destruct (step solve pinv o b); reflexivity|]. destruct (step solve pinv x a); [apply IH; auto|discriminate]. Qed.
Lemma c65_q h ab q ab1 f link : reached solve pinv h ab -> base_fixed false h = true -> set_q q ab = Ret ab1 tt -> (forall off, f <> PyPose off) ->
  outcome (py_kin solve pinv f link (Some q) ab) = outcome (py_kin solve pinv f link None ab1).
Proof.
  intros R B E NP. assert (AC : AddComm S) by apply laws_comm.
  assert (R1 : reached solve pinv (h ++ [OSetQ q]) ab1) by (destruct R as (n & m & R); exists n, m; rewrite (run_snoc _ _ _ _ R); cbn [step]; rewrite E; reflexivity).
  assert (B1 : base_fixed false (h ++ [OSetQ q]) = true) by (rewrite fixed_set; exact B).
  assert (Q1 : ab_q ab1 = q). { unfold set_q in E. destruct (negb _); [discriminate|]. destruct (negb _); [discriminate|]. destruct (veqb (ab_q ab) q) eqn:V; inversion E; subst; [apply veqb_sound; exact V|reflexivity]. }
  assert (P : forall off, Position_q ab q link off = Position_q ab1 q link off /\ Orientation_q ab q link = Orientation_q ab1 q link /\ Jacobian_q ab q link off = Jacobian_q ab1 q link off).
  { unfold set_q in E. destruct (negb _); [discriminate|]. destruct (negb _); [discriminate|]. destruct (veqb (ab_q ab) q); inversion E; subst; auto. }
  assert (J0 : forall off, outcome (ask solve pinv (QJac link off) ab1) = bind (Jacobian_q ab q link off) (fun J => Ok (AMots J))).
  { intros off. destruct (P off) as (_ & _ & ->). rewrite <- Q1 at 1. eapply c08_overloads; eauto. }
  assert (HL : forall off, outcome (ask solve pinv (QLin link off) ab1) = bind (Jacobian_q ab q link off) (fun J => Ok (AV3s (map mlin J))) /\
    outcome (ask solve pinv (QAng link) ab1) = bind (Jacobian_q ab q link off) (fun J => Ok (AV3s (map mang J)))).
  { intros off. pose proof (c08_halves solve pinv _ ab1 link off R1 B1) as X. rewrite J0 in X. destruct (Jacobian_q ab q link off) as [J| |] eqn:EJ; cbn [bind] in *; [exact X|destruct X|].
    destruct (reached_wfc solve pinv _ ab1 R1 B1) as [T W]. destruct (out_Jac ab1 T W link off) as (o' & _ & Y). rewrite X in Y.
    cbn [ask]. split; rewrite outcome_wrap; [rewrite out_Lin, Y|rewrite (out_Ang ab1 T W), X]; reflexivity. }
  assert (OB : forall (r : res answer) (a : body), outcome (bind r (fun x => Ok (a, x))) = r) by (intros [x| |] a; reflexivity).
  unfold py_kin. rewrite OB. destruct f as [off| |off|off|off|off]; cbn [py_at py_at_state].
  - destruct (P off) as (-> & _ & _). rewrite <- Q1 at 1. symmetry. apply (c07_explicit solve pinv _ ab1 link off R1 B1).
  - destruct (P v3zero) as (_ & -> & _). rewrite <- Q1 at 1. symmetry. apply (c07_explicit solve pinv _ ab1 link v3zero R1 B1).
  - destruct (NP off eq_refl).
  - symmetry. apply J0.
  - symmetry. apply HL.
  - symmetry. apply HL.
Qed.
End Kin.
(** Tasks in order of priority, through one array. *)
Section Priority.
Context {S : Scal} {L : ScalLaws S} {PL : PosLaws S} {ES : EqSound S}.
Lemma c65_priority solve pinv h ab e t0 rest ab' tau A Li m v mem mem' :
  reached solve pinv h ab -> base_fixed false h = true -> one_threshold e h -> proper ab ->
  outcome (ask solve pinv QInertia ab) = Ok (AMat A) -> solver_ok solve (ab_dof ab) A ->
  sized m (ab_dof ab) (t_J t0) -> List.length (t_ddx t0) = m ->
  outcome (ask solve pinv (QoLinv (t_J t0)) ab) = Ok (AMat Li) -> inverse_of m Li (fst (pinv Li e)) ->
  p_svd (t_o t0) = e -> p_cc (t_o t0) = false -> p_fric (t_o t0) = false -> klt k0 (p_facc (t_o t0)) = false ->
  (t_fe_empty t0 = true -> forall k, t_fe t0 k = None) ->
  0 < ab_dof ab -> square_array (ab_dof ab) v -> separate v -> holds v mem (identity (ab_dof ab)) ->
  py_stack solve pinv (NView v) (t0 :: rest) mem (repeat k0 (ab_dof ab)) ab = Some (ab', (mem', tau)) ->
  forall st, exists ddq, outcome (ask solve pinv (QFD tau (t_fe t0) (IdOpts (p_grav (t_o t0)) false false st)) ab') = Ok (AVec ddq) /\
    List.length ddq = ab_dof ab /\
    forall i, i < m -> row_times (ab_dof ab) (t_J t0) ddq i = coef (t_ddx t0) i.
Proof.
  intros R B OT P EA SO SJ LD EL IV E1 E2 E3 E4 E5 Hn SQ U H E. pose proof (c65_stack solve pinv v mem t0 rest (repeat k0 (ab_dof ab)) ab Hn SQ U H) as X. rewrite E in X.
  exact (c36_stack solve pinv h ab e t0 rest ab' tau A Li m R B OT P EA SO SJ LD EL IV E1 E2 E3 E4 E5 X).
Qed.
End Priority.
