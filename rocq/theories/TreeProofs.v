(** Tree bookkeeping invariant over API histories. *)
From Coq Require Import List Arith ZArith Bool String Lia.
From Verif Require Import Scalar Base Spatial Joint Body Kin InvDyn FwdDyn Opspace OpspaceAba Deriv Sim Ops Specs.
Import ListNotations.

Lemma upd_same {A} (f : arr A) i x : upd f i x i = x.
Proof. unfold upd. rewrite Nat.eqb_refl. reflexivity. Qed.
Lemma upd_other {A} (f : arr A) i j x : j <> i -> upd f i x j = f j.
Proof. intros H. unfold upd. apply Nat.eqb_neq in H. rewrite H. reflexivity. Qed.

Lemma length_replace_nth {A} n (x : A) l : List.length (replace_nth n x l) = List.length l.
Proof. revert n; induction l; destruct n; cbn; auto. Qed.
Lemma nth_replace_same {A} n (x d : A) l : n < List.length l -> nth n (replace_nth n x l) d = x.
Proof. revert n; induction l; destruct n; cbn; intros; try lia; auto. apply IHl; lia. Qed.
Lemma nth_replace_other {A} n m (x d : A) l : n <> m -> nth m (replace_nth n x l) d = nth m l d.
Proof. revert n m; induction l; destruct n, m; cbn; intros; auto; try lia. Qed.

Lemma vec_length {A} n (f : arr A) : List.length (vec n f) = n.
Proof. unfold vec. rewrite map_length, seq_length. reflexivity. Qed.
Lemma nth_vec {A} n (f : arr A) i d : i < n -> nth i (vec n f) d = f i.
Proof.
  intros H. unfold vec. rewrite nth_indep with (d' := f 0) by (rewrite map_length, seq_length; auto).
  rewrite map_nth, seq_nth; auto.
Qed.
Lemma vec_ext {A} n (f g : arr A) : (forall i, i < n -> f i = g i) -> vec n f = vec n g.
Proof. intros H. unfold vec. apply map_ext_in. intros a Ha. apply in_seq in Ha. apply H; lia. Qed.
Lemma mat_ext {A} r c (f g : arr2 A) :
  (forall i j, i < r -> j < c -> f i j = g i j) -> mat r c f = mat r c g.
Proof.
  intros H. unfold mat. apply map_ext_in. intros a Ha. apply in_seq in Ha.
  apply map_ext_in. intros b Hb. apply in_seq in Hb. apply H; lia.
Qed.

Section Tree.
Context {S : Scal}.
Variable solve : list (list K) -> list K -> list K.
Variable pinv : list (list K) -> K -> list (list K) * bool.

Lemma frame_refl a : frame a a.
Proof. repeat split. Qed.
Lemma frame_trans a b c : frame a b -> frame b c -> frame a c.
Proof. unfold frame. intuition congruence. Qed.
Lemma frame_cache a c : frame a (set_cache a c).
Proof. repeat split. Qed.

(** A query only changes the cache. *)
Lemma on_cache_frame {A} ab (f : cache -> res (cache * A)) ab' x :
  on_cache ab f = Ok (ab', x) -> exists c, ab' = set_cache ab (Some c).
Proof.
  unfold on_cache, bind. destruct (ab_cache ab); [|discriminate].
  destruct (f c) as [[c' y]| |]; try discriminate. intros H; inversion H; eauto.
Qed.
Lemma wrap_inv {A} (f : A -> answer) (r : res (body * A)) ab' x :
  wrap f r = Ok (ab', x) -> exists y, r = Ok (ab', y) /\ x = f y.
Proof.
  unfold wrap, bind. destruct r as [[b y]| |]; try discriminate. intros H; inversion H; subst; eauto.
Qed.
Lemma ask_frame q ab ab' x :
  ask solve pinv q ab = Ok (ab', x) -> exists c, ab' = set_cache ab (Some c).
Proof.
  destruct q; cbn; intros H; apply wrap_inv in H; destruct H as [y [H _]];
  try (apply on_cache_frame in H; exact H);
  unfold q_Position, q_Orientation, q_CartesianPose, q_LinearJacobian, q_AngularJacobian,
    q_InertiaInverse_solve, q_InverseDynamics, q_ForwardDynamics, q_ForwardDynamicsAba,
    q_VelocityDerivative, q_PositionDerivative, q_ops_Friction, q_ops_InverseDynamics,
    q_ops_InertiaInverse, q_ops_Inertia, q_ops_JacobianDynamicInverse, q_ops_IsSingular,
    q_ops_CentrifugalCoriolis, q_ops_Gravity, q_ops_ExternalForces, with_J, bind in H;
  repeat match type of H with
  | (match ?e with _ => _ end) = Ok _ => destruct e eqn:?; try discriminate H
  | Ok _ = Ok _ => inversion H; clear H; subst
  | (let '(_, _) := ?e in _) = Ok _ => destruct e eqn:?
  end;
  try match goal with
  | H : on_cache _ _ = Ok _ |- _ => apply on_cache_frame in H; exact H
  | H : q_T_to_world _ _ = Ok _ |- _ => apply on_cache_frame in H; exact H
  | H : q_Jacobian _ _ _ = Ok _ |- _ => apply on_cache_frame in H; exact H
  end.
Qed.

Lemma sim_fd_frame aba tau fe o ab ab' x :
  sim_fd solve aba tau fe o ab = Ok (ab', x) -> exists c, ab' = set_cache ab (Some c).
Proof.
  unfold sim_fd. destruct aba; intros H.
  - apply (ask_frame (QAba tau fe o) ab ab' (AVec x)). cbn. rewrite H. reflexivity.
  - apply (ask_frame (QFD tau fe o) ab ab' (AVec x)). cbn. rewrite H. reflexivity.
Qed.

Lemma set_q_frame q ab ab' : set_q q ab = Ret ab' tt -> frame ab ab' /\ ab_dq ab' = ab_dq ab /\
  List.length (ab_q ab') = ab_dof ab.
Proof.
  unfold set_q. destruct (Nat.eqb (List.length q) (ab_dof ab)) eqn:E; cbn; [|discriminate].
  apply Nat.eqb_eq in E.
  destruct (Nat.eqb (List.length (ab_q ab)) (List.length q)) eqn:E2; cbn; [|discriminate].
  apply Nat.eqb_eq in E2.
  destruct (veqb (ab_q ab) q); intros H; inversion H; subst; clear H; cbn; repeat split; cbn; congruence.
Qed.
Lemma set_dq_frame q ab ab' : set_dq q ab = Ret ab' tt -> frame ab ab' /\ ab_q ab' = ab_q ab /\
  List.length (ab_dq ab') = ab_dof ab.
Proof.
  unfold set_dq. destruct (Nat.eqb (List.length q) (ab_dof ab)) eqn:E; cbn; [|discriminate].
  apply Nat.eqb_eq in E.
  destruct (Nat.eqb (List.length (ab_dq ab)) (List.length q)) eqn:E2; cbn; [|discriminate].
  apply Nat.eqb_eq in E2.
  destruct (veqb (ab_dq ab) q); intros H; inversion H; subst; clear H; cbn; repeat split; cbn; congruence.
Qed.

Lemma called_inv {A} (r : mres body A) ab' : called r = Ok ab' -> exists x, r = Ret ab' x.
Proof. destruct r; cbn; intros H; inversion H; eauto. Qed.
Lemma put_inv io q dq ab ab' : put io q dq ab = Ok ab' ->
  exists q' ab1 dq', set_q q' ab = Ret ab1 tt /\ set_dq dq' ab1 = Ret ab' tt.
Proof.
  unfold put, bind. intros H.
  destruct (if i_limits io then _ else _) as [q'| |]; try discriminate.
  destruct (called (set_q q' ab)) as [ab1| |] eqn:E1; try discriminate.
  apply called_inv in E1. apply called_inv in H. destruct E1 as [[] E1], H as [[] H]. eauto.
Qed.
Lemma put_frame io q dq ab ab' : put io q dq ab = Ok ab' ->
  frame ab ab' /\ List.length (ab_q ab') = ab_dof ab /\ List.length (ab_dq ab') = ab_dof ab.
Proof.
  intros H. apply put_inv in H. destruct H as (q' & ab1 & dq' & E1 & H).
  apply set_q_frame in E1. apply set_dq_frame in H. destruct E1 as [F1 [D1 L1]], H as [F2 [D2 L2]].
  split; [eapply frame_trans; eauto|]. rewrite D2. split; [exact L1|].
  rewrite L2. destruct F1 as [-> _]. reflexivity.
Qed.

(** Integrate is a sequence of forward-dynamics queries and set_q/set_dq pairs. *)
Lemma integrate_ind (P : body -> Prop) fd io dt ab ab' :
  (forall a a' x, P a -> fd a = Ok (a', x) -> P a') ->
  (forall a a' q dq, P a -> put io q dq a = Ok a' -> P a') ->
  P ab -> integrate fd io dt ab = Ok ab' -> P ab'.
Proof.
  intros Hf Hp H0. unfold integrate, bind.
  destruct (fd ab) as [[a1 x1]| |] eqn:E1; try discriminate.
  assert (P1 : P a1) by (eapply Hf; eauto).
  destruct (i_method io).
  - intros H. eapply Hp; eauto.
  - destruct (put io _ _ a1) as [a2| |] eqn:E2; try discriminate.
    destruct (fd a2) as [[a3 x3]| |] eqn:E3; try discriminate. intros H. eauto.
  - destruct (put io _ _ a1) as [a2| |] eqn:E2; try discriminate.
    destruct (fd a2) as [[a3 x3]| |] eqn:E3; try discriminate.
    destruct (put io _ _ a3) as [a4| |] eqn:E4; try discriminate.
    destruct (fd a4) as [[a5 x5]| |] eqn:E5; try discriminate.
    destruct (put io _ _ a5) as [a6| |] eqn:E6; try discriminate.
    destruct (fd a6) as [[a7 x7]| |] eqn:E7; try discriminate. intros H. eauto 10.
Qed.
(** Same, ending with a [put]. *)
Lemma integrate_last (P : body -> Prop) fd io dt ab ab' :
  (forall a a' x, P a -> fd a = Ok (a', x) -> P a') ->
  (forall a a' q dq, P a -> put io q dq a = Ok a' -> P a') ->
  P ab -> integrate fd io dt ab = Ok ab' -> exists a q dq, P a /\ put io q dq a = Ok ab'.
Proof.
  intros Hf Hp H0. unfold integrate, bind.
  destruct (fd ab) as [[a1 x1]| |] eqn:E1; try discriminate.
  assert (P1 : P a1) by (eapply Hf; eauto).
  destruct (i_method io).
  - intros H. eauto.
  - destruct (put io _ _ a1) as [a2| |] eqn:E2; try discriminate.
    destruct (fd a2) as [[a3 x3]| |] eqn:E3; try discriminate. intros H. eauto 10.
  - destruct (put io _ _ a1) as [a2| |] eqn:E2; try discriminate.
    destruct (fd a2) as [[a3 x3]| |] eqn:E3; try discriminate.
    destruct (put io _ _ a3) as [a4| |] eqn:E4; try discriminate.
    destruct (fd a4) as [[a5 x5]| |] eqn:E5; try discriminate.
    destruct (put io _ _ a5) as [a6| |] eqn:E6; try discriminate.
    destruct (fd a6) as [[a7 x7]| |] eqn:E7; try discriminate. intros H. eauto 15.
Qed.

(** The tree invariant. *)
Record tree_ok (ab : body) : Prop := {
  tk_rbs : List.length (ab_rbs ab) = ab_dof ab;
  tk_q : List.length (ab_q ab) = ab_dof ab;
  tk_dq : List.length (ab_dq ab) = ab_dof ab;
  tk_anc : List.length (ab_anc ab) = ab_dof ab;
  tk_sub : List.length (ab_sub ab) = ab_dof ab;
  tk_cache : exists c, ab_cache ab = Some c;
  tk_id : forall i, i < ab_dof ab -> rb_id (rb_at ab i) = Z.of_nat i;
  tk_par : forall i, i < ab_dof ab -> (-1 <= rb_parent (rb_at ab i) < Z.of_nat i)%Z;
  tk_anc_at : forall i, i < ab_dof ab ->
    anc_at ab i = match par ab i with None => [i] | Some p => anc_at ab p ++ [i] end;
  tk_sub_at : forall i, i < ab_dof ab ->
    subt_at ab i = filter (fun k => existsb (Nat.eqb i) (anc_at ab k)) (seq 0 (ab_dof ab))
}.

Lemma tree_par ab i p : tree_ok ab -> i < ab_dof ab -> par ab i = Some p -> p < i.
Proof.
  intros H Hi. unfold par. pose proof (tk_par _ H i Hi).
  destruct (rb_parent (rb_at ab i) <? 0)%Z eqn:E; [discriminate|]. intros X; inversion X; subst.
  apply Z.ltb_ge in E. lia.
Qed.

Lemma tree_path ab i : tree_ok ab -> i < ab_dof ab -> is_path (par ab) (anc_at ab i) i.
Proof.
  intros T. induction i as [i IH] using lt_wf_ind. intros Hi. rewrite (tk_anc_at _ T i Hi).
  destruct (par ab i) as [p|] eqn:E.
  - pose proof (tree_par _ _ _ T Hi E). apply path_step with p; auto. apply IH; lia.
  - apply path_root; auto.
Qed.
Lemma is_path_unique par' l1 l2 i : is_path par' l1 i -> is_path par' l2 i -> l1 = l2.
Proof.
  intros H. revert l2. induction H; intros l2 H2; inversion H2; subst; try congruence.
  rewrite H in H1. inversion H1; subst. f_equal. auto.
Qed.

Lemma tree_in_anc_le ab i k : tree_ok ab -> k < ab_dof ab -> In i (anc_at ab k) -> i <= k.
Proof.
  intros T. induction k as [k IH] using lt_wf_ind. intros Hk. rewrite (tk_anc_at _ T k Hk).
  destruct (par ab k) as [p|] eqn:E; cbn.
  - pose proof (tree_par _ _ _ T Hk E). intros H'. apply in_app_or in H'. destruct H' as [H'|[H'|[]]]; [|lia].
    apply IH in H'; lia.
  - intros [H|[]]; lia.
Qed.
Lemma tree_anc_nodup ab k : tree_ok ab -> k < ab_dof ab -> NoDup (anc_at ab k).
Proof.
  intros T. induction k as [k IH] using lt_wf_ind. intros Hk. rewrite (tk_anc_at _ T k Hk).
  destruct (par ab k) as [p|] eqn:E.
  - pose proof (tree_par _ _ _ T Hk E). rewrite <- (rev_involutive (anc_at ab p ++ [k])).
    apply NoDup_rev. rewrite rev_app_distr. cbn. constructor.
    + rewrite <- in_rev. intros H'. apply tree_in_anc_le in H'; auto; lia.
    + apply NoDup_rev, IH; lia.
  - constructor; [intros []|constructor].
Qed.
Lemma tree_in_anc_self ab k : tree_ok ab -> k < ab_dof ab -> In k (anc_at ab k).
Proof.
  intros T Hk. rewrite (tk_anc_at _ T k Hk). destruct (par ab k); [apply in_or_app; right|]; left; auto.
Qed.

(** Walking up the parents gives the ancestors in reverse. *)
Lemma chain_anc ab i : tree_ok ab -> i < ab_dof ab -> forall fuel, i < fuel ->
  chain ab fuel (Some i) = rev (anc_at ab i).
Proof.
  intros T. induction i as [i IH] using lt_wf_ind. intros Hi fuel Hf.
  destruct fuel; [lia|]. cbn. rewrite (tk_anc_at _ T i Hi).
  destruct (par ab i) as [p|] eqn:E.
  - pose proof (tree_par _ _ _ T Hi E). rewrite rev_app_distr. cbn. f_equal. apply IH; lia.
  - destruct fuel; reflexivity.
Qed.
Lemma up_chain_anc ab i : tree_ok ab -> i < ab_dof ab -> up_chain ab i = rev (anc_at ab i).
Proof. intros. apply chain_anc; auto. Qed.

(** AddRigidBody *)
Lemma push_subtrees_length id anc subs : List.length (push_subtrees id anc subs) = List.length subs.
Proof.
  unfold push_subtrees. revert subs; induction anc; cbn; auto; intros.
  rewrite IHanc. apply length_replace_nth.
Qed.
Lemma push_subtrees_nth id anc subs i : NoDup anc -> i < List.length subs ->
  nth i (push_subtrees id anc subs) [] =
  nth i subs [] ++ (if existsb (Nat.eqb i) anc then [id] else []).
Proof.
  unfold push_subtrees. revert subs; induction anc as [|a anc IH]; cbn; intros subs ND Hi.
  - rewrite app_nil_r; auto.
  - inversion ND; subst. rewrite IH; auto; [|rewrite length_replace_nth; auto].
    destruct (Nat.eqb i a) eqn:E.
    + apply Nat.eqb_eq in E; subst. rewrite nth_replace_same by auto.
      assert (existsb (Nat.eqb a) anc = false).
      { destruct (existsb (Nat.eqb a) anc) eqn:X; auto. apply existsb_exists in X.
        destruct X as [y [Hy Ey]]. apply Nat.eqb_eq in Ey; subst; tauto. }
      rewrite H. cbn. apply app_nil_r.
    + apply Nat.eqb_neq in E. rewrite nth_replace_other by auto. reflexivity.
Qed.

Lemma rb_at_app_old ab l i : i < List.length (ab_rbs ab) ->
  nth i (ab_rbs ab ++ l) rb_default = rb_at ab i.
Proof. intros. unfold rb_at. apply app_nth1; auto. Qed.

Lemma add_ok_iff rb p ab : (exists ab' id, add_rigid_body rb p ab = Ret ab' id) <->
  (-1 <= p < Z.of_nat (List.length (ab_rbs ab)))%Z.
Proof.
  unfold add_rigid_body.
  destruct ((Z.of_nat (List.length (ab_rbs ab)) <=? p) || (p <? -1))%Z eqn:E; split.
  - intros [? [? H]]; discriminate.
  - apply orb_true_iff in E. destruct E as [E|E]; [apply Z.leb_le in E|apply Z.ltb_lt in E]; lia.
  - apply orb_false_iff in E. destruct E as [E1 E2]; apply Z.leb_gt in E1; apply Z.ltb_ge in E2; lia.
  - eauto.
Qed.

Lemma add_fields rb p ab ab' id : add_rigid_body rb p ab = Ret ab' id ->
  id = Z.of_nat (List.length (ab_rbs ab)) /\
  ab_dof ab' = Datatypes.S (ab_dof ab) /\
  ab_rbs ab' = ab_rbs ab ++ [Rb (rb_name rb) (rb_graphics rb) id p (rb_T rb) (rb_inertia rb) (rb_joint rb)] /\
  ab_q ab' = grow (ab_q ab) (List.length (ab_rbs ab)) /\
  ab_dq ab' = grow (ab_dq ab) (List.length (ab_rbs ab)) /\
  ab_g ab' = ab_g ab /\ ab_loads ab' = ab_loads ab /\ ab_Tbase ab' = ab_Tbase ab /\
  ab_Ibase ab' = ab_Ibase ab /\ ab_name ab' = ab_name ab /\ ab_graphics ab' = ab_graphics ab.
Proof.
  unfold add_rigid_body.
  destruct ((Z.of_nat (List.length (ab_rbs ab)) <=? p) || (p <? -1))%Z; [discriminate|].
  intros H; inversion H; subst; clear H. cbn. repeat split.
Qed.

Lemma seq_snoc n : seq 0 (Datatypes.S n) = seq 0 n ++ [n].
Proof. rewrite seq_S. reflexivity. Qed.

Lemma tree_add rb p ab ab' id : tree_ok ab -> add_rigid_body rb p ab = Ret ab' id -> tree_ok ab'.
Proof.
  intros T H.
  assert (Hp : (-1 <= p < Z.of_nat (List.length (ab_rbs ab)))%Z) by (apply (add_ok_iff rb); eauto).
  unfold add_rigid_body in H.
  destruct ((Z.of_nat (List.length (ab_rbs ab)) <=? p) || (p <? -1))%Z; [discriminate|].
  inversion H; subst ab' id; clear H.
  pose proof (tk_rbs _ T) as Lr. rewrite Lr in *. set (n := ab_dof ab) in *.
  set (rb' := Rb (rb_name rb) (rb_graphics rb) (Z.of_nat n) p (rb_T rb) (rb_inertia rb) (rb_joint rb)).
  set (ancs := if (p <? 0)%Z then [] else nth (Z.to_nat p) (ab_anc ab) []).
  match goal with |- tree_ok ?X => set (ab' := X) end.
  assert (Ed : ab_dof ab' = Datatypes.S n) by reflexivity.
  assert (Er : forall i, i < n -> rb_at ab' i = rb_at ab i).
  { intros i Hi. unfold ab', rb_at; cbn. apply app_nth1. lia. }
  assert (Ern : rb_at ab' n = rb').
  { unfold ab', rb_at; cbn. rewrite app_nth2 by lia. rewrite Lr, Nat.sub_diag. reflexivity. }
  assert (Ep : forall i, i < n -> par ab' i = par ab i).
  { intros i Hi. unfold par. rewrite Er; auto. }
  assert (Epn : par ab' n = if (p <? 0)%Z then None else Some (Z.to_nat p)).
  { unfold par. rewrite Ern. reflexivity. }
  assert (Ea : forall i, i < n -> anc_at ab' i = anc_at ab i).
  { intros i Hi. unfold ab', anc_at; cbn. apply app_nth1. rewrite (tk_anc _ T); auto. }
  assert (Ean : anc_at ab' n = ancs ++ [n]).
  { unfold ab', anc_at; cbn. rewrite app_nth2 by (rewrite (tk_anc _ T); auto).
    rewrite (tk_anc _ T), Nat.sub_diag. reflexivity. }
  assert (NDa : NoDup ancs).
  { unfold ancs. destruct (p <? 0)%Z eqn:E; [constructor|]. apply Z.ltb_ge in E.
    apply (tree_anc_nodup ab); auto. lia. }
  assert (Lta : forall i, In i ancs -> i < n).
  { unfold ancs. destruct (p <? 0)%Z eqn:E; [intros ? []|]. apply Z.ltb_ge in E.
    intros i Hi. apply (tree_in_anc_le ab) in Hi; auto; lia. }
  constructor.
  - cbn. rewrite app_length, Lr; cbn. lia.
  - cbn. unfold grow. rewrite app_length, firstn_length, (tk_q _ T). cbn. fold n. lia.
  - cbn. unfold grow. rewrite app_length, firstn_length, (tk_dq _ T). cbn. fold n. lia.
  - cbn. rewrite app_length, (tk_anc _ T); cbn. fold n. lia.
  - cbn. rewrite app_length, push_subtrees_length, (tk_sub _ T); cbn. fold n. lia.
  - destruct (tk_cache _ T) as [c Hc]. unfold ab'; cbn. rewrite Hc. eauto.
  - rewrite Ed. intros i Hi. destruct (Nat.eq_dec i n) as [->|].
    + rewrite Ern. reflexivity.
    + rewrite Er by lia. apply T; fold n; lia.
  - rewrite Ed. intros i Hi. destruct (Nat.eq_dec i n) as [->|].
    + rewrite Ern. cbn. lia.
    + rewrite Er by lia. apply T; fold n; lia.
  - rewrite Ed. intros i Hi. destruct (Nat.eq_dec i n) as [->|].
    + rewrite Ean, Epn. unfold ancs. destruct (p <? 0)%Z eqn:E; auto. apply Z.ltb_ge in E.
      rewrite Ea by lia. reflexivity.
    + rewrite Ea, Ep by lia. rewrite (tk_anc_at _ T i) by (fold n; lia).
      destruct (par ab i) as [q|] eqn:E; auto.
      apply (tree_par ab i q T) in E; [|fold n; lia]. rewrite Ea by lia. reflexivity.
  - rewrite Ed. intros i Hi. rewrite seq_snoc, filter_app.
    assert (Ef : filter (fun k => existsb (Nat.eqb i) (anc_at ab' k)) (seq 0 n) =
                 filter (fun k => existsb (Nat.eqb i) (anc_at ab k)) (seq 0 n)).
    { apply filter_ext_in. intros k Hk. apply in_seq in Hk. rewrite Ea by lia. reflexivity. }
    rewrite Ef. cbn [filter]. rewrite Ean, existsb_app. cbn [existsb].
    unfold ab', subt_at; cbn [ab_sub expand_dof]. fold n.
    destruct (Nat.eq_dec i n) as [->|].
    + rewrite app_nth2 by (rewrite push_subtrees_length, (tk_sub _ T); auto).
      rewrite push_subtrees_length, (tk_sub _ T), Nat.sub_diag. cbn.
      rewrite Nat.eqb_refl, orb_true_r.
      replace (filter _ _) with (@nil nat); [reflexivity|]. symmetry.
      clear - T. assert (forall l, (forall k, In k l -> k < n) ->
        filter (fun k => existsb (Nat.eqb n) (anc_at ab k)) l = []).
      { induction l; cbn; auto. intros Hl. destruct (existsb (Nat.eqb n) (anc_at ab a)) eqn:E.
        - apply existsb_exists in E. destruct E as [y [Hy Ey]]. apply Nat.eqb_eq in Ey. subst y.
          assert (a < n) by (apply Hl; auto). apply (tree_in_anc_le ab) in Hy; auto; fold n; lia.
        - auto. }
      apply H. intros k Hk. apply in_seq in Hk. lia.
    + rewrite app_nth1 by (rewrite push_subtrees_length, (tk_sub _ T); fold n; lia).
      rewrite push_subtrees_nth; auto; [|rewrite (tk_sub _ T); fold n; lia].
      f_equal.
      * apply (tk_sub_at _ T); fold n; lia.
      * apply Nat.eqb_neq in n0. rewrite n0. cbn. rewrite orb_false_r. reflexivity.
Qed.

Lemma tree_new name mem : tree_ok (body_new name mem).
Proof. constructor; cbn; eauto; intros; lia. Qed.

Lemma set_loads_frame ab l ab' : set_loads ab l = Ret ab' tt ->
  ab_dof ab' = ab_dof ab /\ ab_rbs ab' = ab_rbs ab /\ ab_anc ab' = ab_anc ab /\ ab_sub ab' = ab_sub ab /\
  ab_q ab' = ab_q ab /\ ab_dq ab' = ab_dq ab /\ (exists c, ab_cache ab' = Some c).
Proof.
  unfold set_loads. destruct (ab_cache ab) eqn:E; [|discriminate]. intros H; inversion H; cbn. repeat split. eauto.
Qed.

(** Same tree (links, ancestors, subtrees) and valid lengths. *)
Lemma tree_same a b : tree_ok a -> ab_dof b = ab_dof a -> ab_rbs b = ab_rbs a -> ab_anc b = ab_anc a ->
  ab_sub b = ab_sub a -> List.length (ab_q b) = ab_dof a -> List.length (ab_dq b) = ab_dof a ->
  (exists c, ab_cache b = Some c) -> tree_ok b.
Proof.
  intros T Hd Hr Ha Hs Lq Ldq C.
  assert (R : forall i, rb_at b i = rb_at a i) by (intros; unfold rb_at; rewrite Hr; reflexivity).
  assert (A : forall i, anc_at b i = anc_at a i) by (intros; unfold anc_at; rewrite Ha; reflexivity).
  assert (P : forall i, par b i = par a i) by (intros; unfold par; rewrite R; reflexivity).
  destruct T. constructor; rewrite ?Hd; try congruence; auto; intros i Hi; rewrite ?R, ?A, ?P; auto.
  - rewrite tk_anc_at0 by auto. destruct (par a i); rewrite ?A; reflexivity.
  - unfold subt_at in *. rewrite Hs, tk_sub_at0 by auto. apply filter_ext. intros k. rewrite A. reflexivity.
Qed.

Lemma set_q_cache q ab ab' : set_q q ab = Ret ab' tt -> (exists c, ab_cache ab = Some c) -> exists c, ab_cache ab' = Some c.
Proof.
  unfold set_q. destruct (negb _); [discriminate|]. destruct (negb _); [discriminate|].
  destruct (veqb _ _); intros H [c Hc]; inversion H; subst; cbn; [|rewrite Hc]; eauto.
Qed.
Lemma set_dq_cache q ab ab' : set_dq q ab = Ret ab' tt -> (exists c, ab_cache ab = Some c) -> exists c, ab_cache ab' = Some c.
Proof.
  unfold set_dq. destruct (negb _); [discriminate|]. destruct (negb _); [discriminate|].
  destruct (veqb _ _); intros H [c Hc]; inversion H; subst; cbn; [|rewrite Hc]; eauto.
Qed.

Lemma tree_set_cache ab c : tree_ok ab -> tree_ok (set_cache ab (Some c)).
Proof. intros T. apply (tree_same ab); auto; try apply T; cbn; eauto. Qed.

Lemma tree_set_q q ab ab' : tree_ok ab -> set_q q ab = Ret ab' tt -> tree_ok ab'.
Proof.
  intros T H. pose proof (set_q_cache _ _ _ H (tk_cache _ T)).
  apply set_q_frame in H. destruct H as [(Hd&Hr&Ha&Hs&_) [Hq Hl]].
  apply (tree_same ab); auto. rewrite Hq. apply T.
Qed.
Lemma tree_set_dq q ab ab' : tree_ok ab -> set_dq q ab = Ret ab' tt -> tree_ok ab'.
Proof.
  intros T H. pose proof (set_dq_cache _ _ _ H (tk_cache _ T)).
  apply set_dq_frame in H. destruct H as [(Hd&Hr&Ha&Hs&_) [Hq Hl]].
  apply (tree_same ab); auto. rewrite Hq. apply T.
Qed.
Lemma tree_put io q dq ab ab' : tree_ok ab -> put io q dq ab = Ok ab' -> tree_ok ab'.
Proof.
  intros T H. apply put_inv in H. destruct H as (q' & ab1 & dq' & E1 & H).
  apply tree_set_q in E1; auto. apply tree_set_dq in H; auto.
Qed.

(** A call that throws does not change the robot. *)
Lemma add_exn rb p ab ab' : add_rigid_body rb p ab = Exn ab' -> ab' = ab.
Proof. unfold add_rigid_body. destruct (_ || _); intros H; inversion H; auto. Qed.
Lemma set_q_exn q ab ab' : set_q q ab = Exn ab' -> ab' = ab.
Proof. unfold set_q. destruct (negb _); [intros H; inversion H; auto|].
  destruct (negb _); [discriminate|]. destruct (veqb _ _); discriminate. Qed.
Lemma set_dq_exn q ab ab' : set_dq q ab = Exn ab' -> ab' = ab.
Proof. unfold set_dq. destruct (negb _); [intros H; inversion H; auto|].
  destruct (negb _); [discriminate|]. destruct (veqb _ _); discriminate. Qed.
Lemma set_loads_exn ab l ab' : set_loads ab l <> Exn ab'.
Proof. unfold set_loads. destruct (ab_cache ab); discriminate. Qed.
Lemma set_inertia_base_exn J ab ab' : set_inertia_base J ab = Exn ab' -> ab' = ab.
Proof. unfold set_inertia_base. destruct (klt _ _); cbn; intros H; inversion H; auto. Qed.

Lemma tree_step o ab ab' : tree_ok ab -> step solve pinv o ab = Some ab' -> tree_ok ab'.
Proof.
  intros T. destruct o; cbn [step].
  - destruct (add_rigid_body rb p ab) as [b i|b|] eqn:E; intros H; inversion H; subst.
    + eapply tree_add; eauto.
    + apply add_exn in E. subst; auto.
  - destruct (set_q q ab) as [b []|b|] eqn:E; intros H; inversion H; subst; eauto using tree_set_q.
    apply set_q_exn in E. subst; auto.
  - destruct (set_dq dq ab) as [b []|b|] eqn:E; intros H; inversion H; subst; eauto using tree_set_dq.
    apply set_dq_exn in E. subst; auto.
  - intros H; inversion H; subst. apply (tree_same ab); auto; try apply T; cbn.
    destruct (tk_cache _ T) as [c ->]. eauto.
  - unfold add_load. destruct (set_loads _ _) as [b []|b|] eqn:E; intros H; inversion H; subst; [|apply set_loads_exn in E; easy].
    apply set_loads_frame in E. destruct E as (?&?&?&?&Hq&Hdq&?). apply (tree_same ab); auto; rewrite ?Hq, ?Hdq; apply T.
  - unfold replace_load. destruct (set_loads _ _) as [b []|b|] eqn:E; intros H; inversion H; subst; [|apply set_loads_exn in E; easy].
    apply set_loads_frame in E. destruct E as (?&?&?&?&Hq&Hdq&?). apply (tree_same ab); auto; rewrite ?Hq, ?Hdq; apply T.
  - unfold clear_load. destruct (set_loads _ _) as [b []|b|] eqn:E; intros H; inversion H; subst; [|apply set_loads_exn in E; easy].
    apply set_loads_frame in E. destruct E as (?&?&?&?&Hq&Hdq&?). apply (tree_same ab); auto; rewrite ?Hq, ?Hdq; apply T.
  - intros H; inversion H; subst. apply (tree_same ab); auto; try apply T; cbn.
  - unfold set_inertia_base. destruct (klt _ _); cbn; intros H; inversion H; subst; auto.
    apply (tree_same ab); auto; try apply T; cbn.
  - unfold body_copy. destruct (ab_cache ab) eqn:E; intros H; inversion H; subst.
    apply (tree_same ab); auto; try apply T; cbn. eauto.
  - destruct (integrate _ _ _ _) eqn:E; intros H; inversion H; subst.
    revert E. apply integrate_ind; auto.
    + intros a a' x Ta Ha. apply sim_fd_frame in Ha. destruct Ha as [c ->]. apply tree_set_cache; auto.
    + intros. eapply tree_put; eauto.
  - destruct (ask solve pinv q ab) as [[b x]| |] eqn:E; try discriminate.
    + intros H; inversion H; subst. apply ask_frame in E. destruct E as [c ->]. apply tree_set_cache; auto.
    + destruct q; try (intros H; inversion H; subst; exact T).
      destruct (q_ops_InverseDynamics _ _ _ _ _ _ _ _ _) as [[b x]| |] eqn:E2; try discriminate.
      intros H; inversion H; subst.
      match type of E2 with q_ops_InverseDynamics _ _ ?J ?d ?N ?f ?e ?oo _ = _ =>
        destruct (ask_frame (QoID J d N f e oo) ab ab' (let '(N', x') := x in ANull N' x')) as [c ->] end.
      * cbn. rewrite E2. destruct x; reflexivity.
      * apply tree_set_cache; auto.
Qed.

Lemma tree_run h : forall ab ab', tree_ok ab -> run solve pinv h ab = Some ab' -> tree_ok ab'.
Proof.
  induction h; cbn; intros ab ab' T H; [inversion H; subst; auto|].
  destruct (step solve pinv a ab) eqn:E; [|discriminate]. eapply IHh; [|eauto]. eapply tree_step; eauto.
Qed.
Lemma tree_reached h ab : reached solve pinv h ab -> tree_ok ab.
Proof. intros [name [mem H]]. eapply tree_run; eauto. apply tree_new. Qed.


(** Links of a history *)
Lemma step_rbs o ab ab' : tree_ok ab -> step solve pinv o ab = Some ab' ->
  ab_rbs ab' = match o with
    | OAdd rb p => if ((-1 <=? p) && (p <? Z.of_nat (List.length (ab_rbs ab))))%Z
        then ab_rbs ab ++ [Rb (rb_name rb) (rb_graphics rb) (Z.of_nat (List.length (ab_rbs ab))) p
                              (rb_T rb) (rb_inertia rb) (rb_joint rb)]
        else ab_rbs ab
    | _ => ab_rbs ab
    end.
Proof.
  intros T. destruct o; cbn [step].
  - destruct ((-1 <=? p) && (p <? Z.of_nat (List.length (ab_rbs ab))))%Z eqn:B.
    + apply andb_true_iff in B. destruct B as [B1 B2]. apply Z.leb_le in B1. apply Z.ltb_lt in B2.
      destruct (proj2 (add_ok_iff rb p ab)) as [b [i E]]; [lia|]. rewrite E. cbn.
      intros H; inversion H; subst. apply add_fields in E. destruct E as (-> & _ & -> & _). reflexivity.
    + destruct (add_rigid_body rb p ab) as [b i|b|] eqn:E; intros H; inversion H; subst.
      * exfalso. assert (X : (-1 <= p < Z.of_nat (List.length (ab_rbs ab)))%Z) by (apply (add_ok_iff rb); eauto).
        apply andb_false_iff in B. destruct B as [B|B]; [apply Z.leb_gt in B|apply Z.ltb_ge in B]; lia.
      * apply add_exn in E. subst; auto.
  - destruct (set_q q ab) as [b []|b|] eqn:E; intros H; inversion H; subst.
    + apply set_q_frame in E. destruct E as [(_&?&_) _]; auto.
    + apply set_q_exn in E. subst; auto.
  - destruct (set_dq dq ab) as [b []|b|] eqn:E; intros H; inversion H; subst.
    + apply set_dq_frame in E. destruct E as [(_&?&_) _]; auto.
    + apply set_dq_exn in E. subst; auto.
  - intros H; inversion H; subst. reflexivity.
  - unfold add_load. destruct (set_loads _ _) as [b []|b|] eqn:E; intros H; inversion H; subst; [|apply set_loads_exn in E; easy].
    apply set_loads_frame in E. tauto.
  - unfold replace_load. destruct (set_loads _ _) as [b []|b|] eqn:E; intros H; inversion H; subst; [|apply set_loads_exn in E; easy].
    apply set_loads_frame in E. tauto.
  - unfold clear_load. destruct (set_loads _ _) as [b []|b|] eqn:E; intros H; inversion H; subst; [|apply set_loads_exn in E; easy].
    apply set_loads_frame in E. tauto.
  - intros H; inversion H; subst. reflexivity.
  - unfold set_inertia_base. destruct (klt _ _); cbn; intros H; inversion H; subst; auto.
  - unfold body_copy. destruct (ab_cache ab) eqn:E; intros H; inversion H; subst. reflexivity.
  - destruct (integrate _ _ _ _) eqn:E; intros H; inversion H; subst.
    revert E. apply (integrate_ind (fun b => ab_rbs b = ab_rbs ab)); auto.
    + intros a0 a' x Ta Ha. apply sim_fd_frame in Ha. destruct Ha as [c ->]. exact Ta.
    + intros a0 a' q dq Ta Ha. apply put_frame in Ha. destruct Ha as [(_&X&_) _]. congruence.
  - destruct (ask solve pinv q ab) as [[b x]| |] eqn:E; try discriminate.
    + intros H; inversion H; subst. apply ask_frame in E. destruct E as [c ->]. reflexivity.
    + destruct q; try (intros H; inversion H; subst; reflexivity).
      destruct (q_ops_InverseDynamics _ _ _ _ _ _ _ _ _) as [[b x]| |] eqn:E2; try discriminate.
      intros H; inversion H; subst.
      match type of E2 with q_ops_InverseDynamics _ _ ?J ?d ?N ?f ?e ?oo _ = _ =>
        destruct (ask_frame (QoID J d N f e oo) ab ab' (let '(N', x') := x in ANull N' x')) as [c ->] end.
      * cbn. rewrite E2. destruct x; reflexivity.
      * reflexivity.
Qed.

Definition as_link (i : nat) (l : rigid_body * Z) : rigid_body :=
  Rb (rb_name (fst l)) (rb_graphics (fst l)) (Z.of_nat i) (snd l) (rb_T (fst l)) (rb_inertia (fst l)) (rb_joint (fst l)).
Fixpoint as_links (i : nat) (l : list (rigid_body * Z)) : list rigid_body :=
  match l with [] => [] | x :: l => as_link i x :: as_links (Datatypes.S i) l end.
Lemma as_links_app i a b : as_links i (a ++ b) = as_links i a ++ as_links (i + List.length a) b.
Proof.
  revert i; induction a; cbn; intros; [rewrite Nat.add_0_r; auto|].
  rewrite IHa. do 2 f_equal. f_equal. lia.
Qed.
Lemma as_links_length i a : List.length (as_links i a) = List.length a.
Proof. revert i; induction a; cbn; auto. Qed.
Lemma as_links_nth k a i d x : nth_error a i = Some x -> nth i (as_links k a) d = as_link (k + i) x.
Proof.
  revert k i; induction a; destruct i; cbn; intros; try discriminate.
  - inversion H; subst. rewrite Nat.add_0_r; auto.
  - rewrite IHa with (1 := H). f_equal. lia.
Qed.

Lemma run_links h : forall ab ab' links, tree_ok ab -> ab_rbs ab = as_links 0 links ->
  run solve pinv h ab = Some ab' -> ab_rbs ab' = as_links 0 (fold_left accept h links).
Proof.
  induction h as [|o h IH]; cbn [run fold_left]; intros ab ab' links T E H; [inversion H; subst; auto|].
  destruct (step solve pinv o ab) as [b|] eqn:Es; [|discriminate].
  apply (IH b ab'); auto; [eapply tree_step; eauto|].
  apply step_rbs in Es; auto. rewrite Es. destruct o; cbn [accept]; auto.
  unfold acceptable. rewrite E, as_links_length.
  destruct ((-1 <=? p) && (p <? Z.of_nat (List.length links)))%Z eqn:B; [|reflexivity].
  rewrite as_links_app. reflexivity.
Qed.
Lemma reached_links h ab : reached solve pinv h ab -> ab_rbs ab = as_links 0 (accepted h).
Proof. intros [name [mem H]]. eapply run_links; eauto. apply tree_new. reflexivity. Qed.

Lemma idx_nat n i : i < n -> idx n (Z.of_nat i) = Some i.
Proof.
  intros H. unfold idx, norm_idx. destruct (Z.of_nat i <? 0)%Z eqn:E; [apply Z.ltb_lt in E; lia|].
  destruct (_ && _)%Z eqn:E2.
  - f_equal. lia.
  - apply andb_false_iff in E2. destruct E2 as [X|X]; [apply Z.leb_gt in X|apply Z.ltb_ge in X]; lia.
Qed.
Lemma idx_neg n i : i < n -> idx n (Z.of_nat i - Z.of_nat n) = Some i.
Proof.
  intros H. unfold idx, norm_idx. destruct (_ <? 0)%Z eqn:E; [|apply Z.ltb_ge in E; lia].
  destruct (_ && _)%Z eqn:E2.
  - f_equal. lia.
  - apply andb_false_iff in E2. destruct E2 as [X|X]; [apply Z.leb_gt in X|apply Z.ltb_ge in X]; lia.
Qed.
Lemma idx_none n z : (z < - Z.of_nat n \/ Z.of_nat n <= z)%Z -> idx n z = None.
Proof.
  intros H. unfold idx, norm_idx.
  destruct (z <? 0)%Z eqn:E; [apply Z.ltb_lt in E|apply Z.ltb_ge in E];
  destruct (_ && _)%Z eqn:E2; auto; apply andb_true_iff in E2; destruct E2 as [X Y];
  apply Z.leb_le in X; apply Z.ltb_lt in Y; lia.
Qed.
Lemma idx_spec n z i : idx n z = Some i <->
  i < n /\ (z = Z.of_nat i \/ z = Z.of_nat i - Z.of_nat n)%Z.
Proof.
  split.
  - unfold idx, norm_idx. destruct (z <? 0)%Z eqn:E; [apply Z.ltb_lt in E|apply Z.ltb_ge in E];
    destruct (_ && _)%Z eqn:E2; intros H; inversion H; subst; apply andb_true_iff in E2; destruct E2 as [X Y];
    apply Z.leb_le in X; apply Z.ltb_lt in Y; lia.
  - intros [H [->| ->]]; [apply idx_nat|apply idx_neg]; auto.
Qed.

Lemma c01 h ab : reached solve pinv h ab ->
  let links := accepted h in
  let n := List.length links in
  ab_dof ab = n /\
  forall i rb p, nth_error links i = Some (rb, p) ->
    (-1 <= p < Z.of_nat i)%Z /\
    forall z, z = Z.of_nat i \/ z = (Z.of_nat i - Z.of_nat n)%Z ->
    api_rigid_body ab z = Ok (Rb (rb_name rb) (rb_graphics rb) (Z.of_nat i) p (rb_T rb) (rb_inertia rb) (rb_joint rb)) /\
    (exists anc, api_ancestors ab z = Ok anc /\ is_path (requested_parent links) anc i) /\
    (exists sub, api_subtree ab z = Ok sub /\ NoDup sub /\
       forall k, In k sub <-> k < n /\ exists l, is_path (requested_parent links) l k /\ In i l).
Proof.
  intros R links n. pose proof (tree_reached _ _ R) as T. pose proof (reached_links _ _ R) as L.
  assert (D : ab_dof ab = n). { rewrite <- (tk_rbs _ T), L. apply as_links_length. }
  split; [exact D|]. intros i rb p Hi.
  assert (Hn : i < n) by (unfold n; apply nth_error_Some; rewrite Hi; discriminate).
  assert (Hrb : forall k rb p, nth_error links k = Some (rb, p) -> rb_at ab k = as_link k (rb, p)).
  { intros k rb' p' Hk. unfold rb_at. rewrite L. fold links. rewrite (as_links_nth 0 links k) with (1 := Hk). reflexivity. }
  assert (Hpar : forall k, k < n -> par ab k = requested_parent links k).
  { intros k Hk. unfold requested_parent. destruct (nth_error links k) as [[rb' p']|] eqn:Ek.
    - unfold par. rewrite (Hrb _ _ _ Ek). reflexivity.
    - apply nth_error_None in Ek. fold n in Ek. lia. }
  assert (Hpath : forall k, k < n -> is_path (requested_parent links) (anc_at ab k) k).
  { intros k. induction k as [k IHk] using lt_wf_ind. intros Hk.
    rewrite (tk_anc_at _ T k) by lia. destruct (par ab k) as [q|] eqn:Eq.
    - pose proof (tree_par _ _ _ T (ltac:(lia) : k < ab_dof ab) Eq).
      apply path_step with q; [rewrite <- Hpar; auto|]. apply IHk; lia.
    - apply path_root. rewrite <- Hpar; auto. }
  split.
  { pose proof (tk_par _ T i ltac:(lia)) as X. rewrite (Hrb _ _ _ Hi) in X. exact X. }
  intros z Hz. assert (Iz : idx n z = Some i) by (apply idx_spec; auto).
  unfold api_rigid_body, api_ancestors, api_subtree. rewrite (tk_rbs _ T), D, Iz.
  split; [rewrite (Hrb _ _ _ Hi); reflexivity|]. split.
  - eexists; split; [reflexivity|]. auto.
  - eexists; split; [reflexivity|]. rewrite (tk_sub_at _ T i) by lia. split.
    + apply NoDup_filter, seq_NoDup.
    + intros k. rewrite filter_In, in_seq, D. split.
      * intros [Hk Hin]. split; [lia|]. exists (anc_at ab k). split; [apply Hpath; lia|].
        apply existsb_exists in Hin. destruct Hin as [y [Hy Ey]]. apply Nat.eqb_eq in Ey. subst; auto.
      * intros [Hk [l [Hl Hin]]]. split; [lia|]. apply existsb_exists. exists i. split; [|apply Nat.eqb_refl].
        rewrite (is_path_unique _ _ _ _ (Hpath k Hk) Hl). exact Hin.
Qed.

Lemma c02_add ab rb p : reachable solve pinv ab ->
  match add_rigid_body rb p ab with
  | Bad => False
  | Exn ab' => (p < -1 \/ Z.of_nat (ab_dof ab) <= p)%Z /\ ab' = ab
  | Ret ab' id =>
    (-1 <= p < Z.of_nat (ab_dof ab))%Z /\ id = Z.of_nat (ab_dof ab) /\
    ab_dof ab' = Datatypes.S (ab_dof ab) /\
    ab_rbs ab' = ab_rbs ab ++ [Rb (rb_name rb) (rb_graphics rb) id p (rb_T rb) (rb_inertia rb) (rb_joint rb)] /\
    ab_q ab' = ab_q ab ++ [k0] /\ ab_dq ab' = ab_dq ab ++ [k0] /\
    ab_g ab' = ab_g ab /\ ab_loads ab' = ab_loads ab /\ ab_Tbase ab' = ab_Tbase ab /\
    ab_Ibase ab' = ab_Ibase ab /\ ab_name ab' = ab_name ab /\ ab_graphics ab' = ab_graphics ab
  end.
Proof.
  intros [h R]. pose proof (tree_reached _ _ R) as T.
  destruct (add_rigid_body rb p ab) as [ab' id|ab'|] eqn:E.
  - assert (X : (-1 <= p < Z.of_nat (List.length (ab_rbs ab)))%Z) by (apply (add_ok_iff rb); eauto).
    apply add_fields in E. rewrite (tk_rbs _ T) in *.
    destruct E as (E1&E2&E3&E4&E5&E6). subst id.
    unfold grow in E4, E5. rewrite firstn_all2 in E4 by (rewrite (tk_q _ T); auto).
    rewrite firstn_all2 in E5 by (rewrite (tk_dq _ T); auto). tauto.
  - split; [|eapply add_exn; eauto]. unfold add_rigid_body in E. rewrite (tk_rbs _ T) in E.
    destruct (_ || _) eqn:B in E; [|discriminate].
    apply orb_true_iff in B. destruct B as [B|B]; [apply Z.leb_le in B|apply Z.ltb_lt in B]; lia.
  - unfold add_rigid_body in E. destruct (_ || _) in E; discriminate.
Qed.

Lemma c02_q ab q : reachable solve pinv ab ->
  match set_q q ab with
  | Bad => False
  | Exn ab' => List.length q <> ab_dof ab /\ ab' = ab
  | Ret ab' _ => List.length q = ab_dof ab /\ frame ab ab' /\ ab_dq ab' = ab_dq ab /\
                 (ab_q ab' = q \/ ab' = ab /\ veqb (ab_q ab) q = true)
  end.
Proof.
  intros [h R]. pose proof (tree_reached _ _ R) as T. unfold set_q. rewrite (tk_q _ T).
  destruct (Nat.eqb (List.length q) (ab_dof ab)) eqn:E; cbn.
  - apply Nat.eqb_eq in E. rewrite <- E, Nat.eqb_refl. cbn. destruct (veqb (ab_q ab) q) eqn:V.
    + repeat split; auto.
    + repeat split; auto.
  - apply Nat.eqb_neq in E. auto.
Qed.
Lemma c02_dq ab q : reachable solve pinv ab ->
  match set_dq q ab with
  | Bad => False
  | Exn ab' => List.length q <> ab_dof ab /\ ab' = ab
  | Ret ab' _ => List.length q = ab_dof ab /\ frame ab ab' /\ ab_q ab' = ab_q ab /\
                 (ab_dq ab' = q \/ ab' = ab /\ veqb (ab_dq ab) q = true)
  end.
Proof.
  intros [h R]. pose proof (tree_reached _ _ R) as T. unfold set_dq. rewrite (tk_dq _ T).
  destruct (Nat.eqb (List.length q) (ab_dof ab)) eqn:E; cbn.
  - apply Nat.eqb_eq in E. rewrite <- E, Nat.eqb_refl. cbn. destruct (veqb (ab_dq ab) q) eqn:V.
    + repeat split; auto.
    + repeat split; auto.
  - apply Nat.eqb_neq in E. auto.
Qed.

End Tree.
