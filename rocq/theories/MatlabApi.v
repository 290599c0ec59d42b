(** What the MATLAB functions return. *)
From Coq Require Import List Arith ZArith Bool Lia String.
From Verif Require Import Scalar Base Spatial Joint Body Kin InvDyn FwdDyn Opspace OpspaceAba Deriv Sim Ops Control Ik Discrete Matlab Instances Specs SpecCache SpecKin SpecDyn SpecOps SpecDiscrete SpecMatlab TreeProofs CacheProofs CacheOps KinProofs OpsCache OpsApi DynApi VelProofs MatlabProofs.
Import ListNotations.

Section Api.
Context {S : Scal}.
Context {AC : AddComm S} {ES : EqSound S}.
Variable solve : list (list K) -> list K -> list K.
Variable pinv : list (list K) -> K -> list (list K) * bool.
Variable h : list op.
Variable ab : body.
Hypothesis R : reached solve pinv h ab.
Hypothesis B : base_fixed false h = true.
Notation n := (ab_dof ab).
Notation wy := (way solve pinv None ab).
Lemma start : wy (ab_q ab) (ab_dq ab) ab.
Proof. destruct (reached_wfc solve pinv h ab R B). apply way_start; auto. apply (reached_wop solve pinv None h); auto. apply oone_none. Qed.
Lemma none_ok k : oone None (@OAsk S k).
Proof. intros x _ e He. discriminate. Qed.


(** Functions of Q alone. *)
Lemma over_query {A} Q w dims sz (call : nat -> body -> res (body * list K)) k (f : A -> answer) (r : body -> res (body * A)) (fl : A -> list K) :
  columns n w Q -> size_of dims = sz -> (forall b, ask solve pinv k b = wrap f (r b)) ->
  (forall i b, ab_dof b = n -> call i b = bind (r b) (fun '(b, y) => Ok (b, fl y))) ->
  (forall q dq b, wy q dq b -> (forall mem, outcome (ask solve pinv k b) = outcome (ask solve pinv k (cold b mem))) /\
     exists y, outcome (r b) = Ok y /\ List.length (fl y) = sz) ->
  exists ab' out, mex_over Q dims call ab = Ok (ab', Some out) /\ blocks dims sz w Q out /\
    moved_to ab (last_column n w Q (ab_q ab)) (ab_dq ab) ab' /\
    forall i mem, i < w -> exists y, outcome (ask solve pinv k (restart ab (column n Q i) (ab_dq ab) mem)) = Ok (f y) /\
      forall j, j < sz -> block_entry sz out i j = coef (fl y) j.
Proof.
  intros C Hs Ek Ec Hy.
  destruct (over_ok solve pinv None ab Q w dims sz call (fun _ => ab_dq ab)
     (fun i x => exists y, x = fl y /\ forall mem, outcome (ask solve pinv k (restart ab (column n Q i) (ab_dq ab) mem)) = Ok (f y))) as (ab' & out & E & Bl & M & V).
  - exact C.
  - exact Hs.
  - intros i b Hi W. replace (match i with 0 => ab_dq ab | Datatypes.S _ => ab_dq ab end) with (ab_dq ab) in W by (destruct i; auto).
    destruct (Hy _ _ _ W) as (Fr & y & Y & Ly).
    destruct (asked_ok solve pinv None ab _ _ b k f r y W (none_ok _) Ek Fr Y) as (b' & E & W' & Hm).
    exists b', (fl y). rewrite Ec by apply (way_fields _ _ _ _ _ _ _ W). rewrite E. cbn [bind]. split; [reflexivity|]. split; [exact W'|]. split; [exact Ly|]. exists y. auto.
  - exact start.
  - exists ab', out. split; [exact E|]. split; [exact Bl|]. split; [destruct w; exact M|]. intros i mem Hi. destruct (V i Hi) as (x & (y & -> & Hm) & X). exists y. split; [apply Hm|exact X].
Qed.
(** Functions of Q and dQ (and what [k i] depends on). *)
Lemma over_query2 {A} Q dqs w dims sz (call : nat -> body -> res (body * list K)) k (f : A -> answer) (r : nat -> body -> res (body * A)) (fl : A -> list K) :
  columns n w Q -> size_of dims = sz -> (forall i, i < w -> List.length (dqs i) = n) -> (forall i b, ask solve pinv (k i) b = wrap f (r i b)) ->
  (forall i b, i < w -> ab_dof b = n -> call i b = bind (called (set_dq (dqs i) b)) (fun b => bind (r i b) (fun '(b, y) => Ok (b, fl y)))) ->
  (forall i q dq b, i < w -> wy q dq b -> (forall mem, outcome (ask solve pinv (k i) b) = outcome (ask solve pinv (k i) (cold b mem))) /\
     exists y, outcome (r i b) = Ok y /\ List.length (fl y) = sz) ->
  exists ab' out, mex_over Q dims call ab = Ok (ab', Some out) /\ blocks dims sz w Q out /\
    moved_to ab (last_column n w Q (ab_q ab)) (match w with 0 => ab_dq ab | Datatypes.S i => dqs i end) ab' /\
    forall i mem, i < w -> exists y, outcome (ask solve pinv (k i) (restart ab (column n Q i) (dqs i) mem)) = Ok (f y) /\
      forall j, j < sz -> block_entry sz out i j = coef (fl y) j.
Proof.
  intros C Hs Hl Ek Ec Hy.
  destruct (over_ok solve pinv None ab Q w dims sz call dqs
     (fun i x => exists y, x = fl y /\ forall mem, outcome (ask solve pinv (k i) (restart ab (column n Q i) (dqs i) mem)) = Ok (f y))) as (ab' & out & E & Bl & M & V).
  - exact C.
  - exact Hs.
  - intros i b Hi W. rewrite Ec by (auto; apply (way_fields _ _ _ _ _ _ _ W)).
    destruct (way_set_dq solve pinv None ab _ _ b (dqs i) W (Hl i Hi)) as (b1 & E1 & W1). rewrite E1. cbn [bind].
    destruct (Hy i _ _ _ Hi W1) as (Fr & y & Y & Ly).
    destruct (asked_ok solve pinv None ab _ _ b1 (k i) f (r i) y W1 (none_ok _) (Ek i) Fr Y) as (b' & E & W' & Hm).
    exists b', (fl y). rewrite E. cbn [bind]. split; [reflexivity|]. split; [exact W'|]. split; [exact Ly|]. exists y. auto.
  - exact start.
  - exists ab', out. split; [exact E|]. split; [exact Bl|]. split; [exact M|]. intros i mem Hi. destruct (V i Hi) as (x & (y & -> & Hm) & X). exists y. split; [apply Hm|exact X].
Qed.

Lemma m_gravity Q w rest : columns n w Q -> exists ab' out, mex_gravity (MNum Q :: rest) ab = Ok (ab', Some out) /\ blocks [n] n w Q out /\
  moved_to ab (last_column n w Q (ab_q ab)) (ab_dq ab) ab' /\
  forall i mem, i < w -> exists G, outcome (ask solve pinv QGrav (restart ab (column n Q i) (ab_dq ab) mem)) = Ok (AVec G) /\
    forall j, j < n -> block_entry n out i j = coef G j.
Proof.
  intros C. unfold mex_gravity. cbn [numeric bind]. rewrite (columns_rows _ w) by auto.
  apply (over_query Q w [n] n (fun _ => q_Gravity) QGrav AVec q_Gravity (fun G => G)); auto.
  - unfold size_of. cbn. lia.
  - intros i b _. destruct (q_Gravity b) as [[b' y]| |]; reflexivity.
  - intros q dq b W. pose proof (wy_tree _ _ _ _ _ _ _ W) as T. pose proof (wy_wfc _ _ _ _ _ _ _ W) as V.
    split; [intros mem; apply dynamics_fresh; auto|]. exists (vec (ab_dof b) (Gv b)). split; [apply out_Grav; auto|]. rewrite vec_length. apply (way_fields _ _ _ _ _ _ _ W).
Qed.
Lemma m_inertia Q w rest : columns n w Q -> exists ab' out, mex_inertia (MNum Q :: rest) ab = Ok (ab', Some out) /\ blocks [n; n] (n * n) w Q out /\
  moved_to ab (last_column n w Q (ab_q ab)) (ab_dq ab) ab' /\
  forall i mem, i < w -> exists A, outcome (ask solve pinv QInertia (restart ab (column n Q i) (ab_dq ab) mem)) = Ok (AMat A) /\
    forall r c, r < n -> c < n -> block_entry (n * n) out i (r + n * c) = entry A r c.
Proof.
  intros C. unfold mex_inertia. cbn [numeric bind]. rewrite (columns_rows _ w) by auto.
  destruct (over_query Q w [n; n] (n * n) (fun _ b => bind (q_Inertia b) (fun '(b, A) => Ok (b, flat n n A))) QInertia AMat q_Inertia (flat n n)) as (ab' & out & E & Bl & M & V); auto.
  - unfold size_of. cbn. lia.
  - intros q dq b W. pose proof (wy_tree _ _ _ _ _ _ _ W) as T. pose proof (wy_wfc _ _ _ _ _ _ _ W) as Vb.
    split; [intros mem; apply dynamics_fresh; auto|]. eexists. split; [apply out_Inertia; auto|]. apply flat_length.
  - exists ab', out. split; [exact E|]. split; [exact Bl|]. split; [exact M|]. intros i mem Hi. destruct (V i mem Hi) as (A & EA & X). exists A. split; [exact EA|].
    intros r c Hr Hc. rewrite X by nia. apply flat_entry; auto.
Qed.
Lemma jacobian_exact b k : tree_ok b -> wfc b -> jacobian_query k = true -> forall mem, outcome (ask solve pinv k b) = outcome (ask solve pinv k (cold b mem)).
Proof.
  intros T V Q mem. destruct (jacobian_fresh solve pinv b k mem T V Q) as (o' & Ho & ->).
  assert (o' = offset_of k) as -> by (destruct Ho; auto; apply v3eqb_sound; auto).
  assert (with_offset k (offset_of k) = k) as -> by (destruct k; try discriminate Q; reflexivity). reflexivity.
Qed.
Lemma last_link b : ab_dof b = n -> 0 < n -> exists l, idx (ab_dof b) (-1) = Some l.
Proof. intros E H. rewrite E. exists (n - 1). apply idx_spec. split; [lia|]. right. lia. Qed.
Lemma m_hessian Q w rest : 0 < n -> columns n w Q -> exists ab' out, mex_hessian (MNum Q :: rest) ab = Ok (ab', Some out) /\ blocks [n; n; 6] (n * n * 6) w Q out /\
  moved_to ab (last_column n w Q (ab_q ab)) (ab_dq ab) ab' /\
  forall i mem, i < w -> exists H, outcome (ask solve pinv (QHess (-1) v3zero) (restart ab (column n Q i) (ab_dq ab) mem)) = Ok (AHess H) /\
    forall r c k, r < n -> c < n -> k < 6 -> block_entry (n * n * 6) out i (r + n * c + n * n * k) = six_of (nth c (nth r H nil) mzero) k.
Proof.
  intros N C. unfold mex_hessian. cbn [numeric bind]. rewrite (columns_rows _ w) by auto.
  destruct (over_query Q w [n; n; 6] (n * n * 6) (fun _ b => bind (q_Hessian (-1) v3zero b) (fun '(b, H) => Ok (b, flat_hess n H))) (QHess (-1) v3zero) AHess (q_Hessian (-1) v3zero) (flat_hess n))
    as (ab' & out & E & Bl & M & V); auto.
  - unfold size_of. cbn. lia.
  - intros q dq b W. pose proof (wy_tree _ _ _ _ _ _ _ W) as T. pose proof (wy_wfc _ _ _ _ _ _ _ W) as Vb.
    split; [apply jacobian_exact; auto|]. destruct (last_link b) as (l & El); [apply (way_fields _ _ _ _ _ _ _ W)|auto|].
    destruct (out_Hess b T Vb (-1) v3zero) as (o' & _ & E). rewrite El in E. eexists. split; [exact E|]. apply flat_hess_length.
  - exists ab', out. split; [exact E|]. split; [exact Bl|]. split; [exact M|]. intros i mem Hi. destruct (V i mem Hi) as (H & EH & X). exists H. split; [exact EH|].
    intros r c k Hr Hc Hk. rewrite X by nia. apply flat_hess_entry; auto.
Qed.
Lemma m_coriolis Q dQ w v rest : columns n w Q -> columns n v dQ -> w <= v ->
  exists ab' out, mex_coriolis (MNum Q :: MNum dQ :: rest) ab = Ok (ab', Some out) /\ blocks [n] n w Q out /\
  moved_to ab (last_column n w Q (ab_q ab)) (last_column n w dQ (ab_dq ab)) ab' /\
  forall i mem, i < w -> exists C, outcome (ask solve pinv QCC (restart ab (column n Q i) (column n dQ i) mem)) = Ok (AVec C) /\
    forall j, j < n -> block_entry n out i j = coef C j.
Proof.
  intros C D L. unfold mex_coriolis. cbn [numeric bind]. rewrite (columns_rows _ w), (columns_rows _ v) by auto. cbn [negb].
  apply (over_query2 Q (column n dQ) w [n] n _ (fun _ => QCC) AVec (fun _ => q_CentrifugalCoriolis) (fun C => C)); auto.
  - unfold size_of. cbn. lia.
  - intros i _. apply column_length.
  - intros i b Hi _. rewrite (m_col_ok n v) by (auto; lia). cbn [bind]. destruct (called _) as [b'| |]; auto. cbn [bind]. destruct (q_CentrifugalCoriolis b') as [[b'' y]| |]; reflexivity.
  - intros i q dq b Hi W. pose proof (wy_tree _ _ _ _ _ _ _ W) as T. pose proof (wy_wfc _ _ _ _ _ _ _ W) as V.
    split; [intros mem; apply dynamics_fresh; auto|]. exists (vec (ab_dof b) (Cv b)). split; [apply out_CC; auto|]. rewrite vec_length. apply (way_fields _ _ _ _ _ _ _ W).
Qed.

Lemma m_position_none rest Q : whole Q -> hd_error (m_dim Q) <> Some n ->
  mex_gravity (MNum Q :: rest) ab = Ok (ab, None) /\ mex_inertia (MNum Q :: rest) ab = Ok (ab, None) /\ mex_hessian (MNum Q :: rest) ab = Ok (ab, None) /\
  mex_coriolis (MNum Q :: rest) ab = Ok (ab, None) /\ mex_position (MNum Q :: rest) ab = Ok (ab, None) /\ mex_jacobian (MNum Q :: rest) ab = Ok (ab, None) /\
  mex_jbar solve pinv (MNum Q :: rest) ab = Ok (ab, None).
Proof.
  intros _ Hd. assert (X : rows_are n Q = false).
  { unfold rows_are. destruct (m_dim Q) as [|d ds]; auto. apply Nat.eqb_neq. intros ->. apply Hd. reflexivity. }
  unfold mex_gravity, mex_inertia, mex_hessian, mex_coriolis, mex_position, mex_jacobian, mex_jbar. cbn [numeric bind]. rewrite X. cbn [negb].
  repeat split; auto. destruct rest; auto.
Qed.
End Api.

(** ** The velocity derivative does not depend on the caches *)
Section Vel.
Context {S : Scal}.
Variable ab : body.
Hypothesis T : tree_ok ab.
Lemma dv_unique dv dv' : dv_eq ab dv -> dv_eq ab dv' -> forall i j, i < ab_dof ab -> dv i j = dv' i j.
Proof.
  intros H H' i. induction i as [i IH] using lt_wf_ind. intros j Hi. rewrite (H i j Hi), (H' i j Hi). destruct (Nat.eqb j i); auto.
  destruct (par ab i) as [p|] eqn:P; auto. destruct (Nat.ltb j i); auto. pose proof (tree_par _ _ _ T Hi P). rewrite (IH p) by lia. auto.
Qed.
Lemma da_unique dv dv' da da' : dv_eq ab dv -> dv_eq ab dv' -> da_eq ab dv da -> da_eq ab dv' da' -> forall i j, i < ab_dof ab -> da i j = da' i j.
Proof.
  intros V V' H H' i. induction i as [i IH] using lt_wf_ind. intros j Hi. rewrite (H i j Hi), (H' i j Hi), (dv_unique dv dv' V V' i j Hi). destruct (Nat.leb j i); auto.
  destruct (par ab i) as [p|] eqn:P; auto. pose proof (tree_par _ _ _ T Hi P). rewrite (IH p) by lia. auto.
Qed.
Lemma df_unique dv dv' da da' df df' : dv_eq ab dv -> dv_eq ab dv' -> da_eq ab dv da -> da_eq ab dv' da' -> df_eq ab dv da df -> df_eq ab dv' da' df' ->
  forall i j, i < ab_dof ab -> df i j = df' i j.
Proof.
  intros V V' A A' H H' i j Hi. rewrite (H i j Hi), (H' i j Hi), (dv_unique dv dv' V V' i j Hi), (da_unique dv dv' da da' V V' A A' i j Hi). auto.
Qed.
Lemma back_same f f' : (forall i, i < ab_dof ab -> f i = f' i) -> forall i, i < ab_dof ab -> back ab f i = back ab f' i.
Proof. intros H i Hi. unfold back. apply back_cong; auto; apply tp_ok_v. Qed.
Lemma fresh_VelD ddq fe o mem : wfc ab -> List.length ddq = ab_dof ab ->
  outcome (q_VelocityDerivative ddq fe o ab) = outcome (q_VelocityDerivative ddq fe o (cold ab mem)).
Proof.
  intros W Hl. destruct (out_VelD ab ddq fe o T W Hl) as (D & -> & X).
  destruct (out_VelD (cold ab mem) ddq fe o (cold_tree ab mem T) (cold_wfc ab mem) Hl) as (D' & E & X'). rewrite E. change (ab_dof (cold ab mem)) with (ab_dof ab).
  f_equal. apply mat_ext. intros i j Hi Hj. destruct (o_cc o); [|rewrite X, X'; auto].
  destruct X as (dv & da & df & V & A & F & X). destruct X' as (dv' & da' & df' & V' & A' & F' & X'). rewrite X, X' by auto.
  apply back_same; auto. intros k Hk. apply (df_unique dv dv' da da'); auto.
Qed.
End Vel.
