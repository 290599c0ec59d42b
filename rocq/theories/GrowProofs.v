(** Lemmas on robots that get one more link (C73). *)
From Coq Require Import List Arith ZArith Bool Lia Ring Field.
From Verif Require Import Scalar Base Spatial SpecGeo Joint Body Kin InvDyn FwdDyn Opspace OpspaceAba Deriv Sim Ops Specs SpecCache SpecKin SpecDyn SpatialTac SpatialProofs TreeProofs CacheProofs CacheOps KinProofs DynProofs DynApi.
Import ListNotations.

Section Grow.
Context {S : Scal}.
Variable solve : list (list K) -> list K -> list K.
Variable pinv : list (list K) -> K -> list (list K) * bool.

Section One.
Variables (h : list op) (ab ab' : body) (rb : rigid_body) (p : Z).
Hypothesis R : reached solve pinv h ab.
Hypothesis E : step solve pinv (OAdd rb p) ab = Some ab'.
Hypothesis P : (-1 <= p < Z.of_nat (ab_dof ab))%Z.
Let n := ab_dof ab.

Lemma g_tree : tree_ok ab.
Proof. exact (tree_reached _ _ _ _ R). Qed.
Lemma g_tree' : tree_ok ab'.
Proof. eapply tree_step; [apply g_tree|exact E]. Qed.
Lemma g_reached : reached solve pinv (h ++ [OAdd rb p]) ab'.
Proof.
  destruct R as (name & mem & H). exists name, mem. revert H. generalize (body_new name mem). clear -E.
  induction h as [|o l IH]; cbn [List.app run]; intros b H; [inversion H; subst; rewrite E; reflexivity|].
  destruct (step solve pinv o b); [auto|discriminate].
Qed.
Lemma g_base b : base_fixed b h = true -> base_fixed b (h ++ [OAdd rb p]) = true.
Proof.
  clear. revert b. induction h as [|o l IH]; cbn; intros b H; auto. destruct o; cbn; auto.
  apply andb_true_iff in H. destruct H as [-> H]. cbn. auto.
Qed.
Lemma g_ret : exists id, add_rigid_body rb p ab = Ret ab' id.
Proof.
  destruct (proj2 (add_ok_iff rb p ab)) as (b & id & A); [rewrite (tk_rbs _ g_tree); exact P|]. cbn [step] in E. rewrite A in E. cbn in E. inversion E; subst. eauto.
Qed.
Lemma g_dof : ab_dof ab' = Datatypes.S n.
Proof. destruct g_ret as [id A]. apply add_fields in A. tauto. Qed.
Lemma g_q : ab_q ab' = ab_q ab ++ [0%k] /\ ab_dq ab' = ab_dq ab ++ [0%k].
Proof.
  destruct g_ret as [id A]. apply add_fields in A. destruct A as (_ & _ & _ & -> & -> & _). unfold grow.
  rewrite (tk_rbs _ g_tree). rewrite <- (tk_q _ g_tree) at 1. rewrite <- (tk_dq _ g_tree) at 1. rewrite !firstn_all. auto.
Qed.
Lemma g_frame : ab_g ab' = ab_g ab /\ ab_loads ab' = ab_loads ab /\ ab_Tbase ab' = ab_Tbase ab.
Proof. destruct g_ret as [id A]. apply add_fields in A. tauto. Qed.
Lemma g_rb i : (i < n)%nat -> rb_at ab' i = rb_at ab i.
Proof.
  intros Hi. destruct g_ret as [id A]. apply add_fields in A. destruct A as (_ & _ & A & _). unfold rb_at. rewrite A. apply app_nth1.
  rewrite (tk_rbs _ g_tree). exact Hi.
Qed.
Lemma g_par i : (i < n)%nat -> par ab' i = par ab i.
Proof. intros Hi. unfold par. rewrite g_rb; auto. Qed.
Lemma g_tpv i : (i < n)%nat -> tpv ab' i = tpv ab i.
Proof.
  intros Hi. unfold tpv, T_par_q. rewrite g_rb by auto. destruct g_q as [-> _]. unfold qk. rewrite app_nth1 by (rewrite (tk_q _ g_tree); exact Hi). reflexivity.
Qed.
Lemma g_twv i : (i < n)%nat -> twv ab' i = twv ab i.
Proof.
  induction i as [i IH] using lt_wf_ind. intros Hi. rewrite (twv_eq ab'), (twv_eq ab) by (auto using g_tree, g_tree'; rewrite g_dof; lia).
  rewrite g_par, g_tpv by auto. destruct g_frame as (_ & _ & ->). destruct (par ab i) as [q|] eqn:Q; auto.
  pose proof (tree_par _ _ _ g_tree Hi Q). rewrite IH by lia. reflexivity.
Qed.
Lemma g_anc i : (i < n)%nat -> anc_at ab' i = anc_at ab i.
Proof.
  induction i as [i IH] using lt_wf_ind. intros Hi. rewrite (tk_anc_at _ g_tree' i), (tk_anc_at _ g_tree i) by (auto; rewrite g_dof; lia).
  rewrite g_par by auto. destruct (par ab i) as [q|] eqn:Q; auto. pose proof (tree_par _ _ _ g_tree Hi Q). rewrite IH by lia. reflexivity.
Qed.
Lemma g_jac k off j : (k < n)%nat -> jacv ab' k off j = if (j <? n) then jacv ab k off j else mzero.
Proof.
  intros Hk. rewrite (jacv_at ab'), (jacv_at ab) by (auto using g_tree, g_tree'; rewrite g_dof; lia). rewrite g_anc, (g_twv k) by auto.
  destruct (existsb (Nat.eqb j) (anc_at ab k)) eqn:X; [|destruct (j <? n); reflexivity].
  apply existsb_exists in X. destruct X as (a & I & Q). apply Nat.eqb_eq in Q. subst a. pose proof (anc_lt ab k j g_tree Hk I) as Hj.
  destruct (Nat.ltb_spec j n) as [_|B]; [|unfold n in B; lia]. unfold jac_col, sub_at. rewrite g_twv, g_rb by auto. reflexivity.
Qed.

(** Existing links: poses and Jacobians. *)
Lemma c73_pose {AC : AddComm S} i off : base_fixed false h = true -> (i < ab_dof ab)%nat ->
  forall q, In q [QTp (Z.of_nat i); QTw (Z.of_nat i); QPos (Z.of_nat i) off; QOri (Z.of_nat i); QPose (Z.of_nat i) off] ->
  outcome (ask solve pinv q ab') = outcome (ask solve pinv q ab).
Proof.
  intros B Hi q I. destruct (reached_wfc _ _ _ _ R B) as [T W]. destruct (reached_wfc _ _ _ _ g_reached (g_base false B)) as [T' W'].
  assert (Q : idx (ab_dof ab) (Z.of_nat i) = Some i) by (apply idx_nat; auto).
  assert (Q' : idx (ab_dof ab') (Z.of_nat i) = Some i) by (apply idx_nat; rewrite g_dof; unfold n; lia).
  destruct I as [<-|[<-|[<-|[<-|[<-|[]]]]]]; cbn [ask]; rewrite !outcome_wrap, ?out_Pos, ?out_Ori, ?out_Pose, ?out_Tw, ?out_Tp, ?Q, ?Q' by auto;
    rewrite ?g_twv, ?g_tpv by auto; reflexivity.
Qed.
Lemma c73_jacobian {AC : AddComm S} k off : (k < ab_dof ab)%nat ->
  exists J, Jacobian_q ab (ab_q ab) (Z.of_nat k) off = Ok J /\ Jacobian_q ab' (ab_q ab') (Z.of_nat k) off = Ok (J ++ [mzero]).
Proof.
  intros Hk. exists (Jall ab k off). pose proof (Jall_ok ab g_tree k off Hk) as A. split; auto.
  assert (Hk' : (k < ab_dof ab')%nat) by (rewrite g_dof; unfold n; lia).
  rewrite (Jall_ok ab' g_tree' k off Hk'). f_equal. unfold Jall. rewrite g_dof. unfold vec. rewrite seq_S, map_app. cbn. f_equal.
  - apply map_ext_in. intros j Hj. apply in_seq in Hj. rewrite g_jac by auto. destruct (Nat.ltb_spec j n); auto. lia.
  - rewrite g_jac by auto. rewrite Nat.ltb_irrefl. reflexivity.
Qed.
(** Dynamics: the new link and what is on it, added to what was there. *)
Section Sums.
Context {L : ScalLaws S} {PL : PosLaws S}.
Add Field kf : (@kfield S L).
Local Open Scope k_scope.
Lemma g_bodies k : (k < n)%nat -> bodies_on ab' k = bodies_on ab k.
Proof.
  intros Hk. unfold bodies_on. pose proof (g_rb k Hk) as A. unfold rb_at in A. rewrite A. destruct g_frame as (_ & -> & _). reflexivity.
Qed.
Lemma total_snoc l x : total (l ++ [x]) = total l + x.
Proof. induction l as [|a l IH]; cbn; [ring|]. unfold total in IH. rewrite IH. ring. Qed.
Lemma g_over f f' : (forall k B, (k < n)%nat -> f' k B = f k B) -> over_bodies ab' f' = over_bodies ab f + total (map (f' n) (bodies_on ab' n)).
Proof.
  intros X. unfold over_bodies, over_links. rewrite g_dof, seq_S, map_app. cbn [map Nat.add]. rewrite total_snoc. f_equal.
  apply total_ext. intros k Hk. apply in_seq in Hk. rewrite g_bodies by lia. apply total_ext. intros B _. apply X. lia.
Qed.
Lemma g_col J J' k off i : jacobians ab J -> jacobians ab' J' -> (k < n)%nat -> (i < n)%nat -> col (J' k off) i = col (J k off) i.
Proof.
  intros A A' Hk Hi. assert (AC : AddComm S) by apply laws_comm. destruct (c73_jacobian k off Hk) as (X & E1 & E2).
  rewrite (A k off Hk) in E1. inversion E1; subst X. rewrite (A' k off) in E2 by (rewrite g_dof; lia). inversion E2 as [X]. rewrite X.
  unfold col. apply app_nth1. pose proof (Jall_ok ab g_tree k off Hk) as Y. rewrite (A k off Hk) in Y. inversion Y as [Z]. rewrite Z.
  unfold Jall, vec. rewrite map_length, seq_length. exact Hi.
Qed.
Lemma g_new J J' k off : jacobians ab J -> jacobians ab' J' -> (k < n)%nat -> col (J' k off) n = mzero.
Proof.
  intros A A' Hk. pose proof (Jall_ok ab' g_tree' k off) as Y. rewrite (A' k off) in Y by (rewrite g_dof; lia).
  specialize (Y ltac:(rewrite g_dof; lia)). inversion Y as [Z]. rewrite Z. unfold col, Jall. rewrite nth_vec by (rewrite g_dof; lia).
  rewrite g_jac by auto. rewrite Nat.ltb_irrefl. reflexivity.
Qed.
Lemma c73_gravity : base_fixed false h = true -> proper ab -> proper ab' ->
  exists J' G G', jacobians ab' J' /\ outcome (ask solve pinv QGrav ab) = Ok (AVec G) /\ outcome (ask solve pinv QGrav ab') = Ok (AVec G') /\
    (forall i, (i < ab_dof ab)%nat -> coef G' i = coef G i - total (map (fun B => imass B * v3dot (mlin (ab_g ab)) (mlin (col (J' (ab_dof ab) (icom B)) i))) (bodies_on ab' (ab_dof ab)))).
Proof.
  intros B Q Q'. destruct (c15 solve pinv h ab R B Q) as (J & G & A & EG & _ & C). destruct (c15 solve pinv _ ab' g_reached (g_base false B) Q') as (J' & G' & A' & EG' & _ & C').
  exists J', G, G'. split; auto. split; auto. split; auto. intros i Hi. rewrite C, C' by (auto; rewrite g_dof; unfold n; lia).
  rewrite (g_over (fun k B => imass B * v3dot (mlin (ab_g ab)) (mlin (col (J k (icom B)) i)))).
  - fold n. destruct g_frame as (-> & _). ring.
  - intros k Bk Hk. rewrite (g_col J J' k (icom Bk) i A A' Hk Hi). destruct g_frame as (-> & _). reflexivity.
Qed.
Lemma c73_inertia : base_fixed false h = true -> proper ab -> proper ab' ->
  exists J' O' A A', jacobians ab' J' /\ orientations ab' O' /\ outcome (ask solve pinv QInertia ab) = Ok (AMat A) /\ outcome (ask solve pinv QInertia ab') = Ok (AMat A') /\
    (forall i j, (i < ab_dof ab)%nat -> (j < ab_dof ab)%nat -> entry A' i j = entry A i j +
      total (map (fun B => kinetic (O' (ab_dof ab)) B (col (J' (ab_dof ab) (icom B)) i) (col (J' (ab_dof ab) (icom B)) j)) (bodies_on ab' (ab_dof ab)))).
Proof.
  intros B Q Q'. destruct (c12 solve pinv h ab R B Q) as (J & O & M & AJ & AO & EM & _ & C & _).
  destruct (c12 solve pinv _ ab' g_reached (g_base false B) Q') as (J' & O' & M' & AJ' & AO' & EM' & _ & C' & _).
  exists J', O', M, M'. repeat (split; [assumption|]). intros i j Hi Hj.
  destruct (C i j Hi Hj) as (-> & _). destruct (C' i j) as (-> & _); try (rewrite g_dof; unfold n; lia).
  apply (g_over (fun k B => kinetic (O k) B (col (J k (icom B)) i) (col (J k (icom B)) j))).
  intros k Bk Hk. rewrite (g_col J J' k (icom Bk) i AJ AJ' Hk Hi), (g_col J J' k (icom Bk) j AJ AJ' Hk Hj).
  assert (X : O' k = O k); [|rewrite X; reflexivity].
  pose proof (Oall_ok ab g_tree k Hk) as Y. rewrite (AO k Hk) in Y. pose proof (Oall_ok ab' g_tree' k) as Y'. rewrite (AO' k) in Y' by (rewrite g_dof; lia).
  specialize (Y' ltac:(rewrite g_dof; lia)). inversion Y as [Z1]. inversion Y' as [Z2]. rewrite Z1, Z2. unfold Oall. rewrite g_twv by auto. reflexivity.
Qed.
Lemma c73_external fe : base_fixed false h = true -> rigid_robot ab -> rigid_robot ab' -> fe (ab_dof ab) = None ->
  exists E E', outcome (ask solve pinv (QExt fe) ab) = Ok (AVec E) /\ outcome (ask solve pinv (QExt fe) ab') = Ok (AVec E') /\
    (forall i, (i < ab_dof ab)%nat -> coef E' i = coef E i) /\ coef E' (ab_dof ab) = 0.
Proof.
  intros B Q Q' N. destruct (c16 solve pinv h ab fe R B Q) as (J & X & U & AJ & AX & EU & _ & C).
  destruct (c16 solve pinv _ ab' fe g_reached (g_base false B) Q') as (J' & X' & U' & AJ' & AX' & EU' & _ & C').
  exists U, U'. split; auto. split; auto. split.
  - intros i Hi. rewrite (C i (fun _ => v3zero)), (C' i (fun _ => v3zero)) by (auto; rewrite g_dof; unfold n; lia). f_equal.
    unfold over_links. rewrite g_dof, seq_S, map_app. cbn [map Nat.add]. rewrite total_snoc. fold n in N. rewrite N.
    match goal with |- ?a + 0 = ?b => assert (a = b) as ->; [|ring] end. apply total_ext. intros k Hk. apply in_seq in Hk.
    assert (Hk' : (k < n)%nat) by lia. destruct (fe k) as [f|]; auto. rewrite (g_col J J' k v3zero i AJ AJ' Hk' Hi). f_equal.
    pose proof (Pall_ok ab g_tree k v3zero Hk') as Y. rewrite (AX k v3zero Hk') in Y. pose proof (Pall_ok ab' g_tree' k v3zero) as Y'.
    rewrite (AX' k v3zero) in Y' by (rewrite g_dof; lia). specialize (Y' ltac:(rewrite g_dof; lia)). inversion Y as [Z1]. inversion Y' as [Z2].
    rewrite Z1, Z2. unfold Pall. rewrite g_twv by auto. reflexivity.
  - rewrite (C' (ab_dof ab) (fun _ => v3zero)) by (rewrite g_dof; unfold n; lia).
    unfold over_links. rewrite g_dof, seq_S, map_app. cbn [map Nat.add]. rewrite total_snoc. fold n in N. fold n. rewrite N.
    rewrite total_zero; [ring|]. intros k Hk. apply in_seq in Hk. destruct (fe k) as [f|]; auto. rewrite (g_new J J' k v3zero AJ AJ') by lia.
    unfold power_at. generalize (X' k v3zero). intros y. vring.
Qed.
End Sums.
End One.
(** A load put on a link number, and a link added. *)
Section Early.
Context {AC : AddComm S}.
Lemma c73_early h ab rb p J z : reached solve pinv h ab -> (0 <= z)%Z -> (-1 <= p < Z.of_nat (ab_dof ab))%Z ->
  exists a b, run solve pinv [OAddLoad J z; OAdd rb p] ab = Some a /\ run solve pinv [OAdd rb p; OAddLoad J z] ab = Some b /\
    (forall mem, cold a mem = cold b mem) /\
    (base_fixed false h = true -> forall q, pose_query q || dynamics_query q = true -> outcome (ask solve pinv q a) = outcome (ask solve pinv q b)).
Proof.
  intros R Z0 P. pose proof (tree_reached _ _ _ _ R) as T. destruct (tk_cache _ T) as [c Ec].
  assert (NZ : forall n, norm_idx n z = z) by (intros n; unfold norm_idx; destruct (Z.ltb_spec z 0); [lia|reflexivity]).
  assert (X : exists a b, run solve pinv [OAddLoad J z; OAdd rb p] ab = Some a /\ run solve pinv [OAdd rb p; OAddLoad J z] ab = Some b /\ forall mem, cold a mem = cold b mem).
  { cbn [run step]. unfold add_load, set_loads. rewrite Ec, !NZ. cbn [settled]. unfold add_rigid_body. cbn [ab_rbs].
    assert (D : ((Z.of_nat (List.length (ab_rbs ab)) <=? p) || (p <? -1))%Z = false).
    { rewrite (tk_rbs _ T). apply orb_false_iff. split; [apply Z.leb_gt|apply Z.ltb_ge]; lia. }
    rewrite D. cbn [settled]. unfold expand_dof. cbn [ab_cache]. rewrite Ec. cbn [settled ab_cache ab_loads ab_dof]. rewrite !NZ. do 2 eexists. split; [reflexivity|]. split; [reflexivity|]. reflexivity. }
  destruct X as (a & b & Ea & Eb & Co). exists a, b. split; auto. split; auto. split; auto. intros B q Hq.
  assert (G : forall l x, run solve pinv l ab = Some x -> reached solve pinv (h ++ l) x).
  { intros l x H. destruct R as (name & mem & R0). exists name, mem. revert R0. generalize (body_new name mem). clear -H.
    induction h as [|o g IH]; cbn [List.app run]; intros b R0; [inversion R0; subst; exact H|]. destruct (step solve pinv o b); [auto|discriminate]. }
  assert (F : forall l, forallb (fun o => match o with OAdd _ _ | OAddLoad _ _ => true | _ => false end) l = true -> base_fixed false (h ++ l) = true).
  { intros l Hl. clear -B Hl. revert B. generalize false. induction h as [|o g IH]; intros f B.
    - cbn. clear B. revert f. induction l as [|o l IH]; intros f; auto. cbn in Hl. apply andb_true_iff in Hl. destruct Hl as [H1 H2]. destruct o; try discriminate; cbn; auto.
    - cbn in *. destruct o; cbn; auto. apply andb_true_iff in B. destruct B as [-> B]. cbn. auto. }
  pose proof (G _ _ Ea) as Ra. pose proof (G _ _ Eb) as Rb. pose proof (F [OAddLoad J z; OAdd rb p] eq_refl) as Fa. pose proof (F [OAdd rb p; OAddLoad J z] eq_refl) as Fb. apply orb_true_iff in Hq. destruct Hq as [Hq|Hq].
  - rewrite (c03_pose solve pinv _ a c q Ra Fa Hq), (c03_pose solve pinv _ b c q Rb Fb Hq), Co. reflexivity.
  - rewrite (c04 solve pinv _ a c q Ra Fa Hq), (c04 solve pinv _ b c q Rb Fb Hq), Co. reflexivity.
Qed.
End Early.
End Grow.
