(** What the MATLAB functions get wrong. *)
From Coq Require Import List Arith ZArith Bool Lia String.
From Verif Require Import Scalar Base Spatial Joint Body Kin InvDyn FwdDyn Opspace OpspaceAba Deriv Sim Ops Control Ik Discrete Matlab Instances Specs SpecCache SpecKin SpecDyn SpecOps SpecDiscrete SpecMatlab TreeProofs CacheProofs CacheOps KinProofs OpsCache OpsApi DynApi VelProofs DiscreteProofs MatlabProofs MatlabApi MatlabMore.
Import ListNotations.

Section Defects.
Context {S : Scal}.
Variable solve : list (list K) -> list K -> list K.
Variable pinv : list (list K) -> K -> list (list K) * bool.

Lemma rows_hd n (a : marr) : hd_error (m_dim a) = Some n -> rows_are n a = true.
Proof. unfold rows_are. destruct (m_dim a); cbn; intros H; inversion H. apply Nat.eqb_refl. Qed.
Lemma ik_undefined goal sz x quat rest ab : matrix 3 1 x -> hd_error (m_dim quat) = Some 4 ->
  mex_inverse_kinematics solve pinv goal sz (MNum x :: MNum quat :: rest) ab = UB.
Proof.
  intros [W E] Q. unfold mex_inverse_kinematics. cbn [numeric bind]. rewrite (rows_hd 4 quat), (rows_hd 3 x) by (auto; rewrite E; reflexivity). cbn [negb].
  unfold whole in W. rewrite E in W. destruct (m_data x) as [|a [|b [|c [|d l]]]]; cbn in W; try discriminate; auto.
Qed.
Lemma ik_quat goal sz x quat quat' rest ab : hd_error (m_dim quat) = Some 4 -> hd_error (m_dim quat') = Some 4 ->
  mex_inverse_kinematics solve pinv goal sz (x :: MNum quat :: rest) ab = mex_inverse_kinematics solve pinv goal sz (x :: MNum quat' :: rest) ab.
Proof.
  intros Q Q'. unfold mex_inverse_kinematics. destruct x as [x|s]; [|reflexivity]. cbn [numeric bind]. rewrite (rows_hd 4 quat), (rows_hd 4 quat') by auto. reflexivity.
Qed.
Lemma ik_three goal sz x quat ab : hd_error (m_dim x) = Some 3 -> hd_error (m_dim quat) = Some 4 ->
  mex_inverse_kinematics solve pinv goal sz [MNum x; MNum quat] ab = UB.
Proof.
  intros X Q. unfold mex_inverse_kinematics. cbn [numeric bind]. rewrite (rows_hd 4 quat), (rows_hd 3 x) by auto. cbn [negb].
  destruct (m_data x) as [|a [|b [|c [|d l]]]]; auto.
Qed.
Lemma coriolis_nothing args ab : List.length args <= 1 -> mex_coriolis args ab = Ok (ab, None).
Proof. destruct args as [|a [|b l]]; auto. cbn. lia. Qed.
Lemma m_col_short n v (a : marr) i : 0 < n -> columns n v a -> v <= i -> m_col n a i = UB.
Proof.
  intros N C H. unfold m_col. pose proof (columns_length n v a C) as L. rewrite skipn_all2 by nia. rewrite firstn_nil. destruct n; [lia|]. reflexivity.
Qed.
Section Until.
Variable call : nat -> body -> res (body * list K).
Variable P : nat -> body -> Prop.
Variable v : nat.
Hypothesis H : forall i b, i < v -> P i b -> exists b' x, call i b = Ok (b', x) /\ P (Datatypes.S i) b'.
Hypothesis H' : forall b, P v b -> call v b = UB.
Lemma loop_until m : forall k b, k <= v -> v < k + m -> P k b -> mex_loop (seq k m) call b = UB.
Proof.
  induction m as [|m IH]; intros k b H1 H2 Pk; [lia|]. cbn [seq mex_loop]. destruct (Nat.eq_dec k v) as [->|N].
  - rewrite H' by auto. reflexivity.
  - destruct (H k b) as (b' & x & E & P'); auto; [lia|]. rewrite E. cbn [bind]. rewrite IH; auto; lia.
Qed.
End Until.

Section Robot.
Context {AC : AddComm S} {ES : EqSound S}.
Variable h : list op.
Variable ab : body.
Hypothesis R : reached solve pinv h ab.
Notation n := (ab_dof ab).
Lemma coriolis_short Q dQ w v rest : base_fixed false h = true -> 0 < n -> columns n w Q -> columns n v dQ -> v < w ->
  mex_coriolis (MNum Q :: MNum dQ :: rest) ab = UB.
Proof.
  intros B N C D Hv. unfold mex_coriolis. cbn [numeric bind]. rewrite (columns_rows _ w), (columns_rows _ v) by auto. cbn [negb]. unfold mex_over.
  rewrite (columns_cols _ _ _ C).
  rewrite (loop_until _ (fun i b => exists q dq, way solve pinv None ab q dq b) v); auto; [| |lia|exists (ab_q ab), (ab_dq ab); apply (start solve pinv h); auto].
  - intros i b Hi (q & dq & W). destruct (way_fields _ _ _ _ _ _ _ W) as (Fd & _). rewrite Fd, (m_col_ok _ w), (m_col_ok _ v) by (auto; lia). cbn [bind].
    destruct (way_set_q solve pinv None ab _ _ b (column n Q i) W (column_length _ _ _)) as (b1 & E1 & W1). rewrite E1. cbn [bind].
    destruct (way_set_dq solve pinv None ab _ _ b1 (column n dQ i) W1 (column_length _ _ _)) as (b2 & E2 & W2). rewrite E2. cbn [bind].
    pose proof (wy_tree _ _ _ _ _ _ _ W2) as T. pose proof (wy_wfc _ _ _ _ _ _ _ W2) as V. pose proof (out_CC b2 T V) as X.
    destruct (q_CentrifugalCoriolis b2) as [[b3 y]| |] eqn:E3; cbn in X; try discriminate. exists b3, y. split; [reflexivity|].
    exists (column n Q i), (column n dQ i). apply (way_ask solve pinv None ab _ _ b2 QCC b3 (AVec y) W2); [apply none_ok|]. cbn [ask]. rewrite E3. reflexivity.
  - intros b (q & dq & W). destruct (way_fields _ _ _ _ _ _ _ W) as (Fd & _). rewrite Fd, (m_col_ok _ w) by (auto; lia). cbn [bind].
    destruct (way_set_q solve pinv None ab _ _ b (column n Q v) W (column_length _ _ _)) as (b1 & E1 & W1). rewrite E1. cbn [bind].
    rewrite (m_col_short n v) by auto. reflexivity.
Qed.
Lemma position_derivative_undefined Q dQ ddQ w rest i p : base_fixed false h = true -> i < n -> par ab i = Some p ->
  matrix n w Q -> matrix n w dQ -> matrix n w ddQ -> 0 < w ->
  mex_position_derivative (MNum Q :: MNum dQ :: MNum ddQ :: rest) ab = UB.
Proof.
  intros B Hi P HQ HD HE Hw. unfold mex_position_derivative. rewrite (three_args ab Q dQ ddQ w) by auto. unfold mex_over.
  rewrite (columns_cols _ _ _ (matrix_columns _ _ _ HQ)).
  rewrite (loop_until _ (fun i b => way solve pinv None ab (ab_q ab) (ab_dq ab) b) 0); auto; [intros; lia| |apply (start solve pinv h); auto].
  intros b W. destruct (way_fields _ _ _ _ _ _ _ W) as (Fd & _). rewrite Fd, !(m_col_ok _ w) by (auto using matrix_columns). cbn [bind].
  destruct (way_set_q solve pinv None ab _ _ b (column n Q 0) W (column_length _ _ _)) as (b1 & E1 & W1). rewrite E1. cbn [bind].
  destruct (way_set_dq solve pinv None ab _ _ b1 (column n dQ 0) W1 (column_length _ _ _)) as (b2 & E2 & W2). rewrite E2. cbn [bind].
  destruct (way_fields _ _ _ _ _ _ _ W2) as (Fd2 & _ & _ & Fr & _). pose proof (wy_tree _ _ _ _ _ _ _ W2) as T. destruct (tk_cache _ T) as (c & Ec).
  assert (Ep : par b2 i = Some p) by (unfold par, rb_at in *; rewrite Fr; auto). assert (Hb : i < ab_dof b2) by (rewrite Fd2; auto).
  unfold q_PositionDerivative. rewrite column_length, Fd2, Nat.eqb_refl. unfold on_cache. rewrite Ec.
  assert (has_child b2 = true) as ->.
  { unfold has_child. apply existsb_exists. exists i. split; [apply in_seq; lia|]. rewrite Ep. reflexivity. }
  pose proof (tree_par _ _ _ T Hb Ep). destruct (Nat.eqb_spec n 1); [lia|]. reflexivity.
Qed.
Lemma jbar_link Q l l' : Forall named_ok l -> Forall named_ok l' ->
  mex_jbar solve pinv (MNum Q :: args_of l) ab = mex_jbar solve pinv (MNum Q :: args_of l') ab.
Proof. intros F F'. unfold mex_jbar. cbn [numeric bind]. rewrite !named_args by auto. reflexivity. Qed.
Lemma jbar_none : n <> 6 -> mex_jbar solve pinv nil ab = UB.
Proof. intros H. unfold mex_jbar. apply Nat.eqb_neq in H. rewrite H. reflexivity. Qed.
End Robot.
End Defects.
(** Histories without operational-space queries. *)
Lemma no_thresholds {S : Scal} e (h : list op) : forallb (fun o => match o with OAsk q => match thresholds q with nil => true | _ => false end | _ => true end) h = true -> one_threshold e h.
Proof.
  intros H q x I X. rewrite forallb_forall in H. specialize (H _ I). cbn in H. destruct (thresholds q); [destruct X|discriminate].
Qed.
