(** What the MATLAB functions return, continued. *)
From Coq Require Import List Arith ZArith Bool Lia String.
From Verif Require Import Scalar Base Spatial Joint Body Kin InvDyn FwdDyn Opspace OpspaceAba Deriv Sim Ops Control Ik Discrete Matlab Instances Specs SpecCache SpecKin SpecDyn SpecOps SpecDiscrete SpecMatlab TreeProofs CacheProofs CacheOps KinProofs OpsCache OpsApi DynApi VelProofs DiscreteProofs MatlabProofs MatlabApi.
Import ListNotations.

Section Named.
Context {S : Scal}.
Lemma matrix_columns n w (a : marr) : matrix n w a -> columns n w a.
Proof. intros [H E]. split; auto. exists [w]. split; auto. unfold size_of. cbn. lia. Qed.
Lemma matrix_ok n w (a : marr) : matrix n w a -> matrix_of n a = true.
Proof. intros H. unfold matrix_of. rewrite (columns_rows n w) by (apply matrix_columns; auto). destruct H as [_ ->]. reflexivity. Qed.
Lemma matrix_same n w (a b : marr) : matrix n w a -> matrix n w b -> same_dims a b = true.
Proof. intros [_ E] [_ E']. unfold same_dims. rewrite E, E'. destruct (list_eq_dec _ _ _); congruence. Qed.
Lemma named_args l : Forall named_ok l -> named (args_of l) (-1) v3zero = Ok (Some (link_of l, offset_in l)).
Proof.
  unfold link_of, offset_in. generalize (-1)%Z v3zero. induction l as [|o l IH]; intros z v H; [reflexivity|]. inversion H as [|? ? Ho Hl]; subst.
  unfold args_of. cbn [flat_map]. fold (args_of l). destruct o as [a|a|s a]; cbn [written app named textual bind]; cbn [fold_left].
  - cbn [String.eqb]. destruct Ho as [Wh E]. unfold numeric. cbn [bind]. unfold rows_are. rewrite E. cbn [Nat.eqb].
    unfold whole in Wh. rewrite E in Wh. destruct (m_data a) as [|x d]; cbn in Wh; [lia|]. apply IH; auto.
  - destruct Ho as [Wh E]. unfold numeric. cbn. unfold rows_are. rewrite E. cbn [Nat.eqb].
    unfold whole in Wh. rewrite E in Wh. destruct (m_data a) as [|x [|y [|t d]]]; cbn in Wh; try lia. apply IH; auto.
  - destruct Ho as [H1 H2]. apply String.eqb_neq in H1, H2. rewrite H1, H2. apply IH; auto.
Qed.
End Named.

Section Laws.
Context {S : Scal} {L : ScalLaws S} {PL : PosLaws S} {ES : EqSound S}.
Variable solve : list (list K) -> list K -> list K.
Variable pinv : list (list K) -> K -> list (list K) * bool.
Variable h : list op.
Variable ab : body.
Hypothesis R : reached solve pinv h ab.
Hypothesis B : base_fixed false h = true.
Notation n := (ab_dof ab).
Let AC : AddComm S := laws_comm.
Existing Instance AC.
Notation wy := (way solve pinv None ab).

Lemma proper_way q dq b : wy q dq b -> proper ab -> proper b.
Proof.
  intros W [A Bm C]. destruct (way_fields _ _ _ _ _ _ _ W) as (Fd & Fq & Fdq & Fr & Fl & Ft & _).
  constructor; unfold rigid_robot, bodies_on, rb_at in *; rewrite ?Fd, ?Fr, ?Fl, ?Ft in *; auto.
Qed.

Lemma three_args Q dQ ddQ w rest dims call : matrix n w Q -> matrix n w dQ -> matrix n w ddQ ->
  mex_three dims call (MNum Q :: MNum dQ :: MNum ddQ :: rest) ab = mex_over Q dims (fun i ab' =>
      bind (m_col n dQ i) (fun dq => bind (called (set_dq dq ab')) (fun ab' =>
      bind (m_col n ddQ i) (fun ddq => call ddq ab')))) ab.
Proof.
  intros HQ HD HE. unfold mex_three. cbn [numeric bind]. rewrite (matrix_ok n w Q), (matrix_ok n w dQ), (matrix_ok n w ddQ), (matrix_same n w dQ Q), (matrix_same n w ddQ Q) by auto.
  reflexivity.
Qed.
Lemma m_inverse_dynamics Q dQ ddQ w rest : proper ab -> matrix n w Q -> matrix n w dQ -> matrix n w ddQ ->
  exists ab' out, mex_inverse_dynamics (MNum Q :: MNum dQ :: MNum ddQ :: rest) ab = Ok (ab', Some out) /\ blocks [n] n w Q out /\
  moved_to ab (last_column n w Q (ab_q ab)) (last_column n w dQ (ab_dq ab)) ab' /\
  forall i mem, i < w -> exists tau,
    outcome (ask solve pinv (QID (column n ddQ i) no_force (IdOpts true true false (klit 1 100))) (restart ab (column n Q i) (column n dQ i) mem)) = Ok (AVec tau) /\
    forall j, j < n -> block_entry n out i j = coef tau j.
Proof.
  intros P HQ HD HE. unfold mex_inverse_dynamics. rewrite (three_args Q dQ ddQ w) by auto.
  apply (over_query2 solve pinv h ab R B Q (column n dQ) w [n] n _ (fun i => QID (column n ddQ i) no_force mex_options) AVec
     (fun i => q_InverseDynamics (column n ddQ i) no_force mex_options) (fun x => x)).
  - apply matrix_columns; exact HQ.
  - unfold size_of. cbn. lia.
  - intros i _. apply column_length.
  - intros i b. reflexivity.
  - intros i b Hi _. rewrite !(m_col_ok n w) by (auto using matrix_columns). cbn [bind]. destruct (called _) as [b'| |]; auto. cbn [bind].
    destruct (q_InverseDynamics _ _ _ b') as [[b'' y]| |]; reflexivity.
  - intros i q dq b Hi W. pose proof (wy_tree _ _ _ _ _ _ _ W) as T. pose proof (wy_wfc _ _ _ _ _ _ _ W) as V. pose proof (proper_way _ _ _ W P) as Pb.
    destruct (way_fields _ _ _ _ _ _ _ W) as (Fd & _). split.
    + intros mem. cbn [ask]. rewrite !outcome_wrap, (out_ID b T V), (out_ID _ (cold_tree b mem T) (cold_wfc b mem)) by (auto using proper_cold). reflexivity.
    + rewrite (out_ID b T V) by auto. rewrite column_length, Fd, Nat.eqb_refl. eexists. split; [reflexivity|]. apply vec_length.
Qed.
Lemma m_velocity_derivative Q dQ ddQ w rest : matrix n w Q -> matrix n w dQ -> matrix n w ddQ ->
  exists ab' out, mex_velocity_derivative (MNum Q :: MNum dQ :: MNum ddQ :: rest) ab = Ok (ab', Some out) /\ blocks [n; n] (n * n) w Q out /\
  moved_to ab (last_column n w Q (ab_q ab)) (last_column n w dQ (ab_dq ab)) ab' /\
  forall i mem, i < w -> exists D,
    outcome (ask solve pinv (QVelD (column n ddQ i) no_force (IdOpts true true false (klit 1 100))) (restart ab (column n Q i) (column n dQ i) mem)) = Ok (AMat D) /\
    forall r c, r < n -> c < n -> block_entry (n * n) out i (r + n * c) = entry D r c.
Proof.
  intros HQ HD HE. unfold mex_velocity_derivative. rewrite (three_args Q dQ ddQ w) by auto.
  destruct (over_query2 solve pinv h ab R B Q (column n dQ) w [n; n] (n * n) (fun i ab' =>
      bind (m_col n dQ i) (fun dq => bind (called (set_dq dq ab')) (fun ab' =>
      bind (m_col n ddQ i) (fun ddq => bind (q_VelocityDerivative ddq no_force mex_options ab') (fun '(ab, A) => Ok (ab, flat n n A))))))
     (fun i => QVelD (column n ddQ i) no_force mex_options) AMat
     (fun i => q_VelocityDerivative (column n ddQ i) no_force mex_options) (flat n n)) as (ab' & out & E & Bl & M & V).
  - apply matrix_columns; exact HQ.
  - unfold size_of. cbn. lia.
  - intros i _. apply column_length.
  - intros i b. reflexivity.
  - intros i b Hi _. rewrite !(m_col_ok n w) by (auto using matrix_columns). cbn [bind]. destruct (called _) as [b'| |]; auto.
  - intros i q dq b Hi W. pose proof (wy_tree _ _ _ _ _ _ _ W) as T. pose proof (wy_wfc _ _ _ _ _ _ _ W) as V.
    destruct (way_fields _ _ _ _ _ _ _ W) as (Fd & _). assert (Hl : List.length (column n ddQ i) = ab_dof b) by (rewrite column_length; auto). split.
    + intros mem. cbn [ask]. rewrite !outcome_wrap, (fresh_VelD b T _ _ _ mem V Hl). reflexivity.
    + destruct (out_VelD b (column n ddQ i) no_force mex_options T V Hl) as (D & -> & _). eexists. split; [reflexivity|]. apply flat_length.
  - exists ab', out. split; [exact E|]. split; [exact Bl|]. split; [exact M|]. intros i mem Hi. destruct (V i mem Hi) as (A & EA & X). exists A. split; [exact EA|].
    intros r c Hr Hc. rewrite X by nia. apply flat_entry; auto.
Qed.

(** ** position and jacobian *)
Lemma restart_way q mem : List.length q = n -> wy q (ab_dq ab) (restart ab q (ab_dq ab) mem).
Proof.
  intros Hq. destruct (reached_wfc solve pinv h ab R B) as [T W].
  assert (M : restart ab q (ab_dq ab) mem = cold (restart ab q (ab_dq ab) mem) mem) by reflexivity.
  assert (T' : tree_ok (restart ab q (ab_dq ab) mem)) by (destruct T; constructor; cbn; auto; eexists; reflexivity).
  constructor; auto.
  - rewrite M. apply cold_wfc.
  - intros m. reflexivity.
  - rewrite M. apply cold_wop.
Qed.
Lemma each_ok Q w dims sz (call : list K -> res (list K)) (ok : nat -> list K -> Prop) : columns n w Q -> size_of dims = sz ->
  (forall i, i < w -> exists x, call (column n Q i) = Ok x /\ List.length x = sz /\ ok i x) ->
  exists out, mex_each Q dims call ab = Ok (ab, Some out) /\ blocks dims sz w Q out /\
    forall i, i < w -> exists x, ok i x /\ forall k, k < sz -> block_entry sz out i k = coef x k.
Proof.
  intros C Hs H. unfold mex_each.
  destruct (loop_all (fun i b => bind (m_col (ab_dof b) Q i) (fun q => bind (call q) (fun x => Ok (b, x)))) (fun _ b => b = ab) ok sz w) with (ab := ab) as (ab' & d & E & P & Ld & Vd).
  - intros i b Hi ->. destruct (H i Hi) as (x & E & Lx & Ox). exists ab, x. rewrite (m_col_ok _ w) by auto. cbn [bind]. rewrite E. auto.
  - reflexivity.
  - subst ab'. rewrite (columns_cols _ _ _ C), E. cbn [bind]. eexists. split; [reflexivity|]. split.
    { split; [reflexivity|]. cbn. split; [|exact Ld]. unfold whole. cbn. rewrite size_app, Ld, Hs. destruct C as (_ & e & Eq & Hw). rewrite Eq. cbn [tl]. rewrite Hw. reflexivity. }
    intros i Hi. destruct (Vd i Hi) as (x & Ox & _ & Hx). exists x. split; auto.
Qed.
Lemma m_position Q w l k : columns n w Q -> Forall named_ok l -> idx n (link_of l) = Some k ->
  exists out, mex_position (MNum Q :: args_of l) ab = Ok (ab, Some out) /\ blocks [3] 3 w Q out /\
  forall i mem, i < w -> exists x, outcome (ask solve pinv (QPos (link_of l) (offset_in l)) (restart ab (column n Q i) (ab_dq ab) mem)) = Ok (AV3 x) /\
    forall j, j < 3 -> block_entry 3 out i j = three_of x j.
Proof.
  intros C F Hk. unfold mex_position. cbn [numeric bind]. rewrite (columns_rows _ w) by auto. rewrite named_args by auto. cbn [bind].
  destruct (each_ok Q w [3] 3 (fun q => bind (Position_q ab q (link_of l) (offset_in l)) (fun x => Ok (flat3 x)))
    (fun i d => exists x, d = flat3 x /\ forall mem, outcome (ask solve pinv (QPos (link_of l) (offset_in l)) (restart ab (column n Q i) (ab_dq ab) mem)) = Ok (AV3 x))) as (out & E & Bl & V); auto.
  - intros i Hi. pose proof (restart_way (column n Q i)) as W. set (b := fun mem => restart ab (column n Q i) (ab_dq ab) mem) in *.
    destruct (tk_cache _ (tree_reached _ _ _ _ R)) as (m0 & _). pose proof (column_length n Q i) as Hl.
    pose proof (position_stored (b m0) (link_of l) (offset_in l) (wy_tree _ _ _ _ _ _ _ (W m0 Hl))) as X.
    change (Position_q (b m0) (ab_q (b m0))) with (Position_q ab (column n Q i)) in X. rewrite X. change (ab_dof (b m0)) with n. rewrite Hk. cbn [bind].
    eexists. split; [reflexivity|]. split; [reflexivity|]. eexists. split; [reflexivity|]. intros mem.
    cbn [ask]. rewrite outcome_wrap, out_Pos, out_Tw by (try apply (wy_wfc _ _ _ _ _ _ _ (W mem Hl)); try apply (wy_tree _ _ _ _ _ _ _ (W mem Hl))).
    match goal with |- context [idx ?d (link_of l)] => change d with n end. rewrite Hk. reflexivity.
  - exists out. split; [exact E|]. split; [exact Bl|]. intros i mem Hi. destruct (V i Hi) as (d & (x & -> & Hm) & X). exists x. split; [apply Hm|]. intros j Hj. rewrite X by auto.
    do 3 (destruct j as [|j]; [reflexivity|]). lia.
Qed.
Lemma m_jacobian Q w l k : columns n w Q -> Forall named_ok l -> idx n (link_of l) = Some k ->
  exists out, mex_jacobian (MNum Q :: args_of l) ab = Ok (ab, Some out) /\ blocks [6; n] (6 * n) w Q out /\
  forall i mem, i < w -> exists J, outcome (ask solve pinv (QJac (link_of l) (offset_in l)) (restart ab (column n Q i) (ab_dq ab) mem)) = Ok (AMots J) /\
    forall r c, r < 6 -> c < n -> block_entry (6 * n) out i (r + 6 * c) = six_of (nth c J mzero) r.
Proof.
  intros C F Hk. unfold mex_jacobian. cbn [numeric bind]. rewrite (columns_rows _ w) by auto. rewrite named_args by auto. cbn [bind].
  destruct (each_ok Q w [6; n] (6 * n) (fun q => bind (Jacobian_q ab q (link_of l) (offset_in l)) (fun J => Ok (List.concat (map m6 J))))
    (fun i d => exists J, d = List.concat (map m6 J) /\ List.length J = n /\ forall mem, outcome (ask solve pinv (QJac (link_of l) (offset_in l)) (restart ab (column n Q i) (ab_dq ab) mem)) = Ok (AMots J))) as (out & E & Bl & V); auto.
  - unfold size_of. cbn. lia.
  - intros i Hi. pose proof (restart_way (column n Q i)) as W. set (b := fun mem => restart ab (column n Q i) (ab_dq ab) mem) in *.
    destruct (tk_cache _ (tree_reached _ _ _ _ R)) as (m0 & _). pose proof (column_length n Q i) as Hl.
    pose proof (Jacobian_q_stored (b m0) (link_of l) (offset_in l) (wy_tree _ _ _ _ _ _ _ (W m0 Hl))) as X.
    change (Jacobian_q (b m0) (ab_q (b m0))) with (Jacobian_q ab (column n Q i)) in X. rewrite X. change (ab_dof (b m0)) with n. rewrite Hk. cbn [bind].
    eexists. split; [reflexivity|]. split; [rewrite jac_flat_length, vec_length; reflexivity|]. eexists. split; [reflexivity|]. split; [apply vec_length|]. intros mem.
    cbn [ask]. rewrite outcome_wrap. pose proof (cold_jac (b mem) mem (link_of l) (offset_in l) (wy_tree _ _ _ _ _ _ _ (W mem Hl))) as Y.
    change (cold (b mem) mem) with (restart ab (column n Q i) (ab_dq ab) mem) in Y. change (ab_dof (b mem)) with n in Y. rewrite Hk in Y. fold (b mem). fold (b mem) in Y. rewrite Y. reflexivity.
  - exists out. split; [exact E|]. split; [exact Bl|]. intros i mem Hi. destruct (V i Hi) as (d & (J & -> & LJ & Hm) & X). exists J. split; [apply Hm|]. intros r c Hr Hc. rewrite X by nia.
    apply jac_flat_entry; auto. lia.
Qed.

(** ** No Q: the stored state *)
Lemma m_stored : 0 < n ->
  (exists ab' G out, ask solve pinv QGrav ab = Ok (ab', AVec G) /\ mex_gravity nil ab = Ok (ab', Some out) /\ m_dim out = [n] /\ m_data out = G) /\
  (exists ab' A out, ask solve pinv QInertia ab = Ok (ab', AMat A) /\ mex_inertia nil ab = Ok (ab', Some out) /\ matrix n n out /\
     forall r c, r < n -> c < n -> coef (m_data out) (r + n * c) = entry A r c) /\
  (exists ab' H out, ask solve pinv (QHess (-1) v3zero) ab = Ok (ab', AHess H) /\ mex_hessian nil ab = Ok (ab', Some out) /\ m_dim out = [n; n; 6] /\ whole out /\
     forall r c k, r < n -> c < n -> k < 6 -> coef (m_data out) (r + n * c + n * n * k) = six_of (nth c (nth r H nil) mzero) k) /\
  (exists ab' x out, ask solve pinv (QPos (-1) v3zero) ab = Ok (ab', AV3 x) /\ mex_position nil ab = Ok (ab', Some out) /\ m_dim out = [3] /\ whole out /\
     forall j, j < 3 -> coef (m_data out) j = three_of x j) /\
  (exists ab' J out, ask solve pinv (QJac (-1) v3zero) ab = Ok (ab', AMots J) /\ mex_jacobian nil ab = Ok (ab', Some out) /\ matrix 6 n out /\
     forall r c, r < 6 -> c < n -> coef (m_data out) (r + 6 * c) = six_of (nth c J mzero) r).
Proof.
  intros N. destruct (reached_wfc solve pinv h ab R B) as [T W]. destruct (last_link ab ab eq_refl N) as (l & El).
  unfold mex_gravity, mex_inertia, mex_hessian, mex_position, mex_jacobian. cbn [ask].
  split; [|split; [|split; [|split]]].
  - pose proof (out_Grav ab T W) as X. destruct (q_Gravity ab) as [[ab' G]| |]; cbn in X; try discriminate. exists ab', G. eexists. split; [reflexivity|]. split; [reflexivity|]. auto.
  - pose proof (out_Inertia ab T W) as X. destruct (q_Inertia ab) as [[ab' A]| |]; cbn in X; try discriminate. exists ab', A. eexists. split; [reflexivity|]. split; [reflexivity|].
    split; [split; [unfold whole, size_of; cbn; rewrite flat_length; lia|reflexivity]|]. intros r c Hr Hc. apply flat_entry; auto.
  - destruct (out_Hess ab T W (-1) v3zero) as (o' & _ & X). rewrite El in X. destruct (q_Hessian (-1) v3zero ab) as [[ab' H]| |]; cbn in X; try discriminate.
    exists ab', H. eexists. split; [reflexivity|]. split; [reflexivity|]. split; [reflexivity|]. split; [unfold whole, size_of; cbn [m_dim m_data]; rewrite flat_hess_length; cbn; lia|].
    intros r c k Hr Hc Hk. apply flat_hess_entry; auto.
  - pose proof (out_Pos ab (-1) v3zero) as X. rewrite (out_Tw ab T W), El in X. destruct (q_Position (-1) v3zero ab) as [[ab' x]| |]; cbn in X; try discriminate.
    exists ab', x. eexists. split; [reflexivity|]. split; [reflexivity|]. split; [reflexivity|]. split; [reflexivity|]. intros j Hj. do 3 (destruct j as [|j]; [reflexivity|]). lia.
  - destruct (out_Jac ab T W (-1) v3zero) as (o' & _ & X). rewrite El in X. destruct (q_Jacobian (-1) v3zero ab) as [[ab' J]| |]; cbn in X; try discriminate.
    assert (LJ : List.length J = n) by (inversion X; apply vec_length). clear X. exists ab', J. eexists. split; [reflexivity|]. split; [reflexivity|].
    split; [split; [unfold whole, size_of; cbn [m_dim m_data]; rewrite jac_flat_length, LJ; cbn; lia|reflexivity]|]. intros r c Hr Hc. apply jac_flat_entry; auto. lia.
Qed.

(** ** The dynamically consistent inverse *)
Hypothesis OT : one_threshold k0 h.
Lemma m_jbar Q w l : 0 < n -> columns n w Q -> Forall named_ok l ->
  exists ab' out, mex_jbar solve pinv (MNum Q :: args_of l) ab = Ok (ab', Some out) /\ blocks [n; 6] (n * 6) w Q out /\
  moved_to ab (last_column n w Q (ab_q ab)) (ab_dq ab) ab' /\
  forall i mem, i < w -> exists J Jb, outcome (ask solve pinv (QJac (-1) v3zero) (restart ab (column n Q i) (ab_dq ab) mem)) = Ok (AMots J) /\
    outcome (ask solve pinv (QoJbar (as_matrix J) k0) (restart ab (column n Q i) (ab_dq ab) mem)) = Ok (AMat Jb) /\
    forall r c, r < n -> c < 6 -> block_entry (n * 6) out i (r + n * c) = entry Jb r c.
Proof.
  intros N C F. unfold mex_jbar. cbn [numeric bind]. rewrite (columns_rows _ w) by auto. rewrite named_args by auto. cbn [bind].
  destruct (over_ok solve pinv (Some k0) ab Q w [n; 6] (n * 6) (fun _ ab => bind (q_Jacobian (-1) v3zero ab) (fun '(ab, J) =>
    bind (q_ops_JacobianDynamicInverse solve pinv (jac_rows J) k0 ab) (fun '(ab', Bm) => Ok (ab', flat n 6 Bm)))) (fun _ => ab_dq ab)
     (fun i x => exists J Jb, x = flat n 6 Jb /\ forall mem, outcome (ask solve pinv (QJac (-1) v3zero) (restart ab (column n Q i) (ab_dq ab) mem)) = Ok (AMots J) /\
        outcome (ask solve pinv (QoJbar (as_matrix J) k0) (restart ab (column n Q i) (ab_dq ab) mem)) = Ok (AMat Jb))) as (ab' & out & E & Bl & M & V).
  - exact C.
  - unfold size_of. cbn. lia.
  - intros i b Hi W. replace (match i with 0 => ab_dq ab | Datatypes.S _ => ab_dq ab end) with (ab_dq ab) in W by (destruct i; auto).
    destruct (way_fields _ _ _ _ _ _ _ W) as (Fd & _). pose proof (wy_tree _ _ _ _ _ _ _ W) as T. pose proof (wy_wfc _ _ _ _ _ _ _ W) as Wb.
    destruct (last_link ab b Fd N) as (k & Ek). destruct (out_Jac b T Wb (-1) v3zero) as (o' & _ & EJ). rewrite Ek in EJ.
    destruct (asked_ok solve pinv (Some k0) ab _ _ b (QJac (-1) v3zero) AMots (q_Jacobian (-1) v3zero) (vec (ab_dof b) (jacv b k o')) W) as (b1 & E1 & W1 & F1).
    + intros x [].
    + reflexivity.
    + apply jacobian_exact; auto.
    + exact EJ.
    + rewrite E1. cbn [bind]. set (J := vec (ab_dof b) (jacv b k o')) in *.
      destruct (way_fields _ _ _ _ _ _ _ W1) as (Fd1 & _). pose proof (wy_tree _ _ _ _ _ _ _ W1) as T1. pose proof (wy_wfc _ _ _ _ _ _ _ W1) as Wb1.
      assert (SH : sh b1 (jac_rows J) = true).
      { unfold sh, shape, jac_rows, J. cbn. rewrite !map_length, !vec_length, Fd, Fd1, !Nat.eqb_refl. reflexivity. }
      destruct (asked_ok solve pinv (Some k0) ab _ _ b1 (QoJbar (jac_rows J) k0) AMat (q_ops_JacobianDynamicInverse solve pinv (jac_rows J) k0) (jbv solve pinv b1 (jac_rows J) k0) W1) as (b2 & E2 & W2 & F2).
      * intros x [<-|[]] e He. congruence.
      * reflexivity.
      * intros mem. cbn [ask]. rewrite !outcome_wrap, (out_oJb solve pinv b1 T1 Wb1 k0 (wy_wop _ _ _ _ _ _ _ W1)).
        rewrite (out_oJb solve pinv (cold b1 mem) (cold_tree b1 mem T1) (cold_wfc b1 mem) k0 (cold_wop solve pinv b1 mem _)). reflexivity.
      * rewrite (out_oJb solve pinv b1 T1 Wb1 k0 (wy_wop _ _ _ _ _ _ _ W1)), SH. reflexivity.
      * rewrite E2. cbn [bind]. eexists _, _. split; [reflexivity|]. split; [exact W2|]. split; [apply flat_length|].
        exists J. eexists. split; [reflexivity|]. intros mem. split; [apply F1|apply F2].
  - destruct (reached_wfc solve pinv h ab R B) as [T W]. apply way_start; auto. apply (reached_wop solve pinv (Some k0) h); auto. apply oone_some; auto.
  - exists ab', out. split; [exact E|]. split; [exact Bl|]. split; [destruct w; exact M|]. intros i mem Hi. destruct (V i Hi) as (x & (J & Jb & -> & H) & X). destruct (H mem) as [H1 H2].
    exists J, Jb. split; [exact H1|]. split; [exact H2|]. intros r c Hr Hc. rewrite X by nia. apply flat_entry; auto.
Qed.
End Laws.

(** ** Discrete inverse dynamics *)
Section Disc.
Context {S : Scal} {AC : AddComm S} {ES : EqSound S}.
Variable solve : list (list K) -> list K -> list K.
Variable pinv : list (list K) -> K -> list (list K) * bool.
Variable log6 : iso -> motion.
Variable dlog6 : iso -> i6.
Variable norm : list K -> K.
Notation dinv := (dinv log6 dlog6).
Notation DID := (q_DiscreteID log6 dlog6).
Lemma did_fresh ab mem qn dt fe grav : told_apart dt -> tree_ok ab -> wfc ab -> dinv ab -> outcome (DID qn dt fe grav ab) = outcome (DID qn dt fe grav (cold ab mem)).
Proof.
  intros Ht T (c0 & E0 & V) (c & E & D & M). assert (c0 = c) by congruence. subst c0.
  rewrite (did_out log6 dlog6 qn dt fe grav ab c) by auto. rewrite (mless_prevq ab dt _ Ht M).
  rewrite (did_out log6 dlog6 qn dt fe grav (cold ab mem) (all_clear mem)); [|auto|apply cold_tree; auto|reflexivity|apply inv_all_clear|apply dri_clear].
  rewrite (mless_prevq (cold ab mem) dt) by (auto; intros X; discriminate X). reflexivity.
Qed.
Lemma mean_length n Q dt i : List.length (mean_velocity n Q dt i) = n.
Proof. unfold mean_velocity. rewrite map_length, seq_length. auto. Qed.
Lemma m_discrete h ab Q D dt d w rest : dreached solve pinv log6 dlog6 norm h ab -> dbase_fixed false h = true -> no_integration h = true ->
  dts_ok h -> told_apart dt -> matrix (ab_dof ab) w Q -> 2 <= w -> m_data D = dt :: d ->
  let n := ab_dof ab in
  exists ab' out, mex_discrete log6 dlog6 (MNum Q :: MNum D :: rest) ab = Ok (ab', Some out) /\ matrix n (w - 2) out /\
  moved_to ab (match w - 2 with 0 => ab_q ab | Datatypes.S i => column n Q (i + 1) end)
              (match w - 2 with 0 => ab_dq ab | Datatypes.S i => mean_velocity n Q dt i end) ab' /\
  forall i mem, i < w - 2 -> exists v,
    outcome (q_DiscreteID log6 dlog6 (column n Q (i + 2)) dt no_force true (restart ab (column n Q (i + 1)) (mean_velocity n Q dt i) mem)) = Ok v /\
    List.length v = n /\ column n out i = v.
Proof.
  intros R Hb Hn Hd Ht HQ Hw HD n. destruct (dreached_inv solve pinv log6 dlog6 norm h ab R Hb Hn Hd) as (T & W & DI).
  pose proof (matrix_columns _ _ _ HQ) as CQ. unfold mex_discrete. cbn [numeric bind]. destruct HQ as [WQ EQ]. rewrite EQ, Nat.eqb_refl. cbn [negb]. assert (Nat.ltb w 2 = false) as -> by (apply Nat.ltb_ge; auto). rewrite HD.
  destruct (loop_all (fun i ab' =>
            bind (m_col n Q i) (fun q0 => bind (m_col n Q (i + 1)) (fun q1 => bind (m_col n Q (i + 2)) (fun q2 =>
            bind (called (set_q q1 ab')) (fun ab' =>
            bind (called (set_dq (vec n (fun j => ((qk q1 j - qk q0 j) / dt)%k)) ab')) (fun ab' =>
            q_DiscreteID log6 dlog6 q2 dt no_force true ab'))))))
     (fun i b => (tree_ok b /\ wfc b /\ dinv b) /\ moved_to ab (match i with 0 => ab_q ab | Datatypes.S i => column n Q (i + 1) end)
              (match i with 0 => ab_dq ab | Datatypes.S i => mean_velocity n Q dt i end) b)
     (fun i v => forall mem, outcome (q_DiscreteID log6 dlog6 (column n Q (i + 2)) dt no_force true (restart ab (column n Q (i + 1)) (mean_velocity n Q dt i) mem)) = Ok v)
     n (w - 2)) with (ab := ab) as (ab' & out & E & (_ & M) & Ld & Vd).
  - intros i b Hi ((Tb & Wb & Db) & Mb). rewrite !(m_col_ok n w) by (auto; lia). cbn [bind].
    destruct (moved_set_q ab _ _ b (column n Q (i + 1)) Tb Mb (column_length _ _ _)) as (b1 & E1 & M1). rewrite E1. cbn [called bind].
    pose proof (tree_set_q _ _ _ Tb E1) as T1. pose proof (inv_set_q _ _ _ Wb E1) as W1. pose proof (dinv_set_q log6 dlog6 _ _ _ Db E1) as D1.
    destruct (moved_set_dq ab _ _ b1 (mean_velocity n Q dt i) T1 M1 (mean_length _ _ _ _)) as (b2 & E2 & M2).
    change (vec n _) with (mean_velocity n Q dt i). rewrite E2. cbn [called bind].
    pose proof (tree_set_dq _ _ _ T1 E2) as T2. pose proof (inv_set_dq _ _ _ W1 E2) as W2. pose proof (dinv_set_dq log6 dlog6 _ _ _ D1 E2) as D2.
    destruct (moved_fields ab _ _ b2 T2 M2) as (Fd & _).
    destruct D2 as (c & Ec & Dc & Mc). destruct W2 as (c0 & E0 & V0). assert (c0 = c) by congruence. subst c0.
    pose proof (did_out log6 dlog6 (column n Q (i + 2)) dt no_force true b2 c Ht T2 Ec V0 Dc) as O.
    rewrite column_length, Fd in O. fold n in O. rewrite Nat.ltb_irrefl in O.
    destruct (DID (column n Q (i + 2)) dt no_force true b2) as [[b3 v]| |] eqn:E3; cbn in O; try discriminate. exists b3, v. split; [reflexivity|].
    assert (W2 : wfc b2) by (exists c; auto). assert (D2 : dinv b2) by (exists c; auto).
    destruct (did_inv log6 dlog6 _ _ _ _ b2 b3 v Ht T2 W2 D2 E3) as (T3 & W3 & D3).
    split; [split; [auto|]|].
    + intros mem. rewrite <- (M2 mem). unfold q_DiscreteID in E3. destruct (Nat.ltb _ _); [discriminate|]. unfold on_cache in E3. rewrite Ec in E3.
      destruct (discrete_id log6 dlog6 b2 _ _ _ _ c) as [c' x]. cbn in E3. inversion E3. reflexivity.
    + split; [inversion O; apply vec_length|]. intros mem. rewrite <- (M2 mem), <- (did_fresh b2 mem) by auto. rewrite E3. reflexivity.
  - split; auto. intros mem. reflexivity.
  - match goal with |- context [bind (mex_loop ?a ?b ?c) _] => replace (mex_loop a b c) with (Ok (ab', out)) by (symmetry; exact E) end.
    cbn [bind]. exists ab', (MA [n; w - 2] out). split; [reflexivity|]. split; [split; [|reflexivity]; unfold whole, size_of; cbn; rewrite Ld; lia|].
    split; [exact M|]. intros i mem Hi. destruct (Vd i Hi) as (x & Hx & Lx & X). exists x. split; [apply Hx|]. split; [auto|].
    apply (nth_ext _ _ k0 k0); rewrite column_length; auto. intros j Hj. unfold column. cbn [m_data]. rewrite nth_vec by auto. rewrite X by auto. reflexivity.
Qed.
End Disc.
