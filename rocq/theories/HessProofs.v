(** The Hessian in closed form, and as a derivative (C42). *)
From Coq Require Import List Arith ZArith Bool Lia Sorted Reals Lra.
From Verif Require Import Scalar Base Spatial SpecGeo Joint Body Kin InvDyn FwdDyn Opspace OpspaceAba Deriv Sim Ops Instances Specs SpecCache SpecKin SpecDyn SpecReal SpatialTac SpatialProofs TreeProofs CacheProofs CacheOps JointProofs BigSum KinProofs WorldProofs DynProofs LoadProofs DynApi RealDyn RealCalc RealMotion.
Import ListNotations.

Section Hess.
Context {S : Scal}.
Definition memb (i : nat) (l : list nat) : bool := existsb (Nat.eqb i) l.
Lemma memb_in i l : memb i l = true <-> In i l.
Proof.
  unfold memb. rewrite existsb_exists. split; [intros (x & H & E); apply Nat.eqb_eq in E; subst; auto|].
  intros H. exists i. split; auto. apply Nat.eqb_refl.
Qed.
Definition hval (J : arr motion) (w : v3) (j : nat) : motion := Mot (v3cross w (mlin (J j))) (v3cross w (mang (J j))).
Lemma hess_fold J w x : forall M (A : arr2 motion) a b,
  fold_left (hess_inner J w x) M A a b =
  if Nat.eqb a x && memb b M then hval J w b else if Nat.eqb b x && memb a M then hval J w a else A a b.
Proof.
  induction M as [|y M IH] using rev_ind; intros A a b; cbn [fold_left].
  - unfold memb. cbn. rewrite !andb_false_r. auto.
  - rewrite fold_left_app. cbn [fold_left]. unfold hess_inner at 1, upd2. rewrite !IH.
    assert (E : forall i, memb i (M ++ [y]) = memb i M || Nat.eqb i y) by (intros i; unfold memb; rewrite existsb_app; cbn; rewrite orb_false_r; auto).
    rewrite !E. fold (hval J w y).
    destruct (Nat.eqb_spec a y), (Nat.eqb_spec b x), (Nat.eqb_spec a x), (Nat.eqb_spec b y); subst; cbn [andb orb]; rewrite ?orb_true_r, ?orb_false_r, ?andb_true_r; auto;
      try congruence; try (destruct (memb _ M); auto; fail).
Qed.
Lemma hess_loop_at ab Tw J : forall l H a b, StronglySorted lt l ->
  hess_loop ab Tw J l H a b =
  if memb a l && memb b l then
    (if is_prismatic (rb_joint (rb_at ab (Nat.min a b))) then H a b
     else hval J (m3mulv (rot (Tw (Nat.min a b))) (mang (sub_at ab (Nat.min a b)))) (Nat.max a b))
  else H a b.
Proof.
  induction l as [|x l IH]; intros H a b SS; [reflexivity|]. cbn [hess_loop]. inversion SS as [|? ? SS' FA]; subst. rewrite Forall_forall in FA.
  rewrite IH by auto. clear IH.
  assert (NX : memb x l = false).
  { destruct (memb x l) eqn:E; auto. apply memb_in in E. apply FA in E. lia. }
  assert (E : forall i, memb i (x :: l) = Nat.eqb i x || memb i l) by reflexivity. rewrite !E.
  destruct (is_prismatic (rb_joint (rb_at ab x))) eqn:Px.
  - destruct (memb a l) eqn:Ea, (memb b l) eqn:Eb; cbn [andb]; rewrite ?orb_true_r, ?orb_false_r; cbn [andb]; auto.
    + destruct (Nat.eqb_spec b x); auto. subst. apply memb_in, FA in Ea. rewrite Nat.min_r, Px by lia. auto.
    + destruct (Nat.eqb_spec a x); cbn [andb]; auto. subst. apply memb_in, FA in Eb. rewrite Nat.min_l, Px by lia. auto.
    + destruct (Nat.eqb_spec a x), (Nat.eqb_spec b x); cbn [andb]; auto. subst. rewrite Nat.min_id, Px. auto.
  - rewrite !hess_fold, !E.
    destruct (memb a l) eqn:Ea, (memb b l) eqn:Eb; cbn [andb]; rewrite ?orb_true_r, ?orb_false_r; cbn [andb]; auto.
    + pose proof (proj1 (memb_in _ _) Ea) as Ia. pose proof (proj1 (memb_in _ _) Eb) as Ib. apply FA in Ia, Ib.
      destruct (Nat.eqb_spec a x); [lia|]. destruct (Nat.eqb_spec b x); [lia|]. cbn [andb]. auto.
    + pose proof (proj1 (memb_in _ _) Ea) as Ia. apply FA in Ia. destruct (Nat.eqb_spec a x); [lia|]. cbn [andb].
      destruct (Nat.eqb_spec b x); cbn [andb]; auto. subst. rewrite Nat.min_r, Px, Nat.max_l by lia. auto.
    + pose proof (proj1 (memb_in _ _) Eb) as Ib. apply FA in Ib. destruct (Nat.eqb_spec a x); cbn [andb].
      * subst. rewrite Nat.min_l, Px, Nat.max_r by lia. auto.
      * destruct (Nat.eqb_spec b x); [lia|]. auto.
    + destruct (Nat.eqb_spec a x), (Nat.eqb_spec b x); cbn [andb]; auto. subst. rewrite Nat.min_id, Nat.max_id, Px. auto.
Qed.
Lemma anc_sorted ab i : tree_ok ab -> i < ab_dof ab -> StronglySorted lt (anc_at ab i).
Proof.
  intros T. induction i as [i IH] using lt_wf_ind. intros Hi. rewrite (tk_anc_at _ T i Hi). destruct (par ab i) as [p|] eqn:E; [|repeat constructor].
  pose proof (tree_par _ _ _ T Hi E) as Hp. assert (SS : StronglySorted lt (anc_at ab p)) by (apply IH; lia).
  assert (F : forall x, In x (anc_at ab p) -> x < i) by (intros x Hx; apply (tree_in_anc_le ab x p T) in Hx; lia).
  clear - SS F. induction (anc_at ab p) as [|x l IHl]; cbn; [repeat constructor|]. inversion SS; subst. constructor.
  - apply IHl; auto. intros; apply F; right; auto.
  - apply Forall_app. split; auto. constructor; auto. apply F; left; auto.
Qed.
Lemma hess_closed ab l o i j : tree_ok ab -> l < ab_dof ab ->
  hessv ab l o i j =
  if ancb ab i l && ancb ab j l then
    (if is_prismatic (rb_joint (rb_at ab (Nat.min i j))) then mzero else hval (jacv ab l o) (mang (Sw ab (Nat.min i j))) (Nat.max i j))
  else mzero.
Proof. intros T Hl. unfold hessv. rewrite hess_loop_at by (apply anc_sorted; auto). reflexivity. Qed.
End Hess.

Local Existing Instances RScal RLaws RPos REq.
Local Open Scope R_scope.
(** A fixed motion of a moving frame, seen from outside. *)
Lemma mot_deriv_out T (s : motion) t V : iso_deriv T t V -> rigid (T t) ->
  mot_deriv (fun u => mact (T u) s) t (mact (T t) (mcross V s)).
Proof.
  intros [T1 T2] RT. unfold rigid in RT.
  assert (W : v3_deriv (fun u => m3mulv (rot (T u)) (mang s)) t (m3mulv (rot (T t)) (v3cross (mang V) (mang s)))).
  { eapply v3_deriv_eq; [apply v3_deriv_mulv; [exact T1|apply v3_deriv_const]|]. rewrite m3mulv_mul, skew_mul.
    generalize (m3mulv (rot (T t)) (v3cross (mang V) (mang s))) (rot (T t)). intros; cases; runf; ext; rr. }
  split.
  - cbn [mact mlin mang]. eapply v3_deriv_eq.
    + apply v3_deriv_sub; [apply v3_deriv_mulv; [exact T1|apply v3_deriv_const]|]. apply v3_deriv_cross; [exact W|exact T2].
    + rewrite mcross_vec. cbn [mlin mang]. rewrite m3mulv_mul, skew_mul. rewrite rot_cross by auto.
      rewrite <- !rot_cross, !m3mulv_add, <- !rot_cross by auto.
      generalize (m3mulv (rot (T t)) (mlin V)) (m3mulv (rot (T t)) (mang V)) (m3mulv (rot (T t)) (mlin s)) (m3mulv (rot (T t)) (mang s)) (tra (T t)) (rot (T t)).
      intros; cases; runf; ext; rr.
  - cbn [mact mang]. eapply v3_deriv_eq; [exact W|]. rewrite mcross_vec. cbn [mang]. auto.
Qed.

Lemma sw_deriv ab q x t j : tree_ok ab -> rigid_robot ab -> proper_joints ab -> (forall u, List.length (q u) = ab_dof ab) -> List.length x = ab_dof ab ->
  vec_deriv (ab_dof ab) q t x -> (j < ab_dof ab)%nat ->
  mot_deriv (fun u => Sw (at_ ab (q u) x) j) t (mcross (rel (at_ ab (q t) x) x j) (Sw (at_ ab (q t) x) j)).
Proof.
  intros T Rr Pj Lq Lx Hq Hj.
  assert (TW : iso_deriv (fun u => twv (at_ ab (q u) x) j) t (velv (at_ ab (q t) x) j))
    by (apply (tw_deriv ab T Rr Pj q (fun _ => x) Lq (fun _ => Lx) t); auto).
  assert (RX : rigid (twv (at_ ab (q t) x) j)) by (apply (twv_rigid (at_ ab (q t) x) j Rr (at_tree ab _ _ T (Lq t) Lx)); auto).
  rewrite rel_vel by auto. unfold Sw. rewrite <- mact_cross by auto.
  change (sub_at (at_ ab (q t) x)) with (sub_at ab).
  apply (mot_deriv_out (fun u => twv (at_ ab (q u) x) j) (sub_at ab j) t (velv (at_ ab (q t) x) j) TW RX).
Qed.
Definition unit_vec (n i : nat) : list R := vec n (fun k => if Nat.eqb k i then 1 else 0).
Lemma rel_unit ab i k : tree_ok ab -> (i < ab_dof ab)%nat -> rel ab (unit_vec (ab_dof ab) i) k = if ancb ab i k then Sw ab i else mzero.
Proof.
  intros T Hi. unfold rel.
  assert (aC : forall a b : motion, madd a b = madd b a) by (intros; apply madd_comm).
  assert (aA : forall a b c : motion, madd a (madd b c) = madd (madd a b) c) by (intros; cases; runf; ext; rr).
  assert (a0 : forall a : motion, madd mzero a = a) by (intros; cases; runf; ext; rr).
  transitivity (@msum RScal (ab_dof ab) (fun j => if Nat.eqb j i then (if ancb ab j k then Sw ab j else mzero) else mzero)).
  - apply bsum_ext. intros j Hj. unfold unit_vec. rewrite (@coef_vec RScal) by auto. destruct (Nat.eqb j i), (ancb ab j k); auto; generalize (Sw ab j); intros; cases; runf; ext; rr.
  - apply (bsum_single madd mzero aC a0 (ab_dof ab) i (fun j => if ancb ab j k then Sw ab j else mzero) Hi).
Qed.
Lemma unit_length n i : List.length (unit_vec n i) = n.
Proof. apply vec_length. Qed.

Lemma prismatic_still ab i : tree_ok ab -> proper_joints ab -> (i < ab_dof ab)%nat -> is_prismatic (rb_joint (rb_at ab i)) = true -> mang (Sw ab i) = v3zero.
Proof.
  intros T Pj Hi E. unfold Sw, sub_at. rewrite (joint_at ab i Pj T Hi). unfold is_prismatic in E.
  destruct (jtyp (rb_joint (rb_at ab i))); try discriminate; cbn [subspace_of mact mang]; generalize (rot (twv ab i)); intros; cases; runf; ext; rr.
Qed.
Lemma hess_val ab l o i j : tree_ok ab -> rigid_robot ab -> proper_joints ab -> (l < ab_dof ab)%nat -> (i < ab_dof ab)%nat -> (j < ab_dof ab)%nat -> (i <= j)%nat ->
  hessv ab l o i j = hessv ab l o j i /\
  hessv ab l o i j = if ancb ab i l && ancb ab j l then hval (jacv ab l o) (mang (Sw ab i)) j else mzero.
Proof.
  intros T Rr Pj Hl Hi Hj Hij. split.
  - rewrite !hess_closed by auto. rewrite (andb_comm (ancb ab j l)), Nat.min_comm, Nat.max_comm. reflexivity.
  - rewrite hess_closed by auto. rewrite Nat.min_l, Nat.max_r by auto.
    destruct (ancb ab i l && ancb ab j l); auto. destruct (is_prismatic _) eqn:E; auto.
    unfold hval. rewrite (prismatic_still ab i T Pj Hi E). generalize (jacv ab l o j). intros; cases; runf; ext; rr.
Qed.

Lemma col_deriv ab q i l off j : tree_ok ab -> rigid_robot ab -> proper_joints ab -> List.length q = ab_dof ab ->
  (l < ab_dof ab)%nat -> (i < ab_dof ab)%nat -> (j < ab_dof ab)%nat ->
  let D := hessv (at_ ab q (ab_dq ab)) l off i j in
  let J := fun x => col (Jall (at_ ab (replaced q i x) (ab_dq ab)) l off) j in
  v3_deriv (fun x => mlin (J x)) (@coef RScal q i) (mlin D) /\
  v3_deriv (fun x => mang (J x)) (@coef RScal q i) (if Nat.leb i j then mang D else v3zero).
Proof.
  intros T Rr Pj Lq Hl Hi Hj D J.
  set (e := unit_vec (ab_dof ab) i). set (t := @coef RScal q i).
  assert (Le : List.length e = ab_dof ab) by apply unit_length.
  assert (Lr : forall u, List.length (replaced q i u) = ab_dof ab) by (intros; rewrite replaced_length; auto).
  assert (Te : tree_ok (at_ ab q e)) by (apply at_tree; auto).
  assert (Dr : vec_deriv (ab_dof ab) (replaced q i) t e) by (apply replaced_deriv; auto).
  assert (JE : forall x, J x = if ancb ab j l then Mot (v3add (mlin (Sw (at_ ab (replaced q i x) e) j)) (v3cross (mang (Sw (at_ ab (replaced q i x) e) j)) (Pall (at_ ab (replaced q i x) e) l off)))
                      (mang (Sw (at_ ab (replaced q i x) e) j)) else mzero).
  { intros x. exact (col_Jall (at_ ab (replaced q i x) e) l off j (at_tree _ _ _ T (Lr x) Le) Rr Hl Hj). }
  assert (DE : forall a b, (a <= b)%nat -> (a < ab_dof ab)%nat -> (b < ab_dof ab)%nat -> hessv (at_ ab q (ab_dq ab)) l off a b = hessv (at_ ab q (ab_dq ab)) l off b a /\
    hessv (at_ ab q (ab_dq ab)) l off a b = if ancb ab a l && ancb ab b l then
      (let Jb := Mot (v3add (mlin (Sw (at_ ab q e) b)) (v3cross (mang (Sw (at_ ab q e) b)) (Pall (at_ ab q e) l off))) (mang (Sw (at_ ab q e) b)) in
       Mot (v3cross (mang (Sw (at_ ab q e) a)) (mlin Jb)) (v3cross (mang (Sw (at_ ab q e) a)) (mang Jb))) else mzero).
  { intros a b Hab Ha Hb. destruct (hess_val (at_ ab q e) l off a b Te Rr Pj Hl Ha Hb Hab) as [H1 H2]. split; [exact H1|].
    change (hessv (at_ ab q (ab_dq ab)) l off a b) with (hessv (at_ ab q e) l off a b). rewrite H2. change (ancb (at_ ab q e)) with (ancb ab).
    destruct (ancb ab a l) eqn:Ea; auto. destruct (ancb ab b l) eqn:Eb; auto. cbn [andb]. unfold hval.
    rewrite (jac_point (at_ ab q e) l b off Te Hl Hb Rr). change (ancb (at_ ab q e)) with (ancb ab). rewrite Eb. reflexivity. }
  destruct (ancb ab j l) eqn:Ej.
  - pose proof (sw_deriv ab (replaced q i) e t j T Rr Pj Lr Le Dr Hj) as SD.
    destruct (point_deriv ab T Rr Pj (replaced q i) e t l off Lr Le Dr Hl) as [PD _].
    unfold t in SD, PD. rewrite replaced_same in SD, PD. fold t in SD, PD.
    rewrite (velocity_rel (at_ ab q e) l off e Te Rr Hl) in PD. cbn [mlin] in PD.
    assert (RE : forall k, rel (at_ ab q e) e k = if ancb ab i k then Sw (at_ ab q e) i else mzero) by (intros k; apply (rel_unit (at_ ab q e) i k Te Hi)).
    rewrite RE in SD, PD. destruct SD as [S1 S2].
    assert (X1 : v3_deriv (fun x => mlin (J x)) t (v3add (mlin (mcross (if ancb ab i j then Sw (at_ ab q e) i else mzero) (Sw (at_ ab q e) j)))
        (v3add (v3cross (mang (mcross (if ancb ab i j then Sw (at_ ab q e) i else mzero) (Sw (at_ ab q e) j))) (Pall (at_ ab q e) l off))
               (v3cross (mang (Sw (at_ ab q e) j)) (v3add (mlin (if ancb ab i l then Sw (at_ ab q e) i else mzero)) (v3cross (mang (if ancb ab i l then Sw (at_ ab q e) i else mzero)) (Pall (at_ ab q e) l off))))))).
    { eapply v3_deriv_ext; [intros x; rewrite JE; reflexivity|]. cbn [mlin].
      eapply v3_deriv_eq; [apply v3_deriv_add; [exact S1|apply v3_deriv_cross; [exact S2|exact PD]]|]. cbv beta. unfold t. rewrite replaced_same. reflexivity. }
    assert (X2 : v3_deriv (fun x => mang (J x)) t (mang (mcross (if ancb ab i j then Sw (at_ ab q e) i else mzero) (Sw (at_ ab q e) j)))).
    { eapply v3_deriv_ext; [intros x; rewrite JE; reflexivity|]. cbn [mang]. exact S2. }
    unfold D. destruct (Nat.leb_spec i j) as [Hij|Hij].
    + destruct (DE i j Hij Hi Hj) as [_ ->]. rewrite Ej, andb_true_r.
      assert (AIJ : ancb ab i j = ancb ab i l).
      { destruct (ancb ab i l) eqn:Ei.
        - destruct (ancb_total ab T i j l Hl Ei Ej) as [X|X]; auto. pose proof (ancb_le ab T j i Hi X). assert (i = j) by lia. subst. apply ancb_self; auto.
        - destruct (ancb ab i j) eqn:E; auto. rewrite (ancb_trans ab T i j l Hl E Ej) in Ei. discriminate. }
      rewrite AIJ in X1, X2. split; [eapply v3_deriv_eq; [exact X1|]|eapply v3_deriv_eq; [exact X2|]]; rewrite mcross_vec; destruct (ancb ab i l); cbn [mlin mang];
        generalize (Sw (at_ ab q e) i) (Sw (at_ ab q e) j) (Pall (at_ ab q e) l off); intros; cases; runf; ext; rr.
    + destruct (DE j i (Nat.lt_le_incl _ _ Hij) Hj Hi) as [E1 E2]. rewrite <- E1, E2, Ej. cbn [andb].
      assert (AIJ : ancb ab i j = false) by (apply ancb_gt; auto).
      rewrite AIJ in X1, X2. split; [eapply v3_deriv_eq; [exact X1|]|eapply v3_deriv_eq; [exact X2|]]; rewrite mcross_vec; destruct (ancb ab i l); cbn [mlin mang];
        generalize (Sw (at_ ab q e) i) (Sw (at_ ab q e) j) (Pall (at_ ab q e) l off); intros; cases; runf; ext; rr.
  - assert (DZ : D = mzero).
    { unfold D. destruct (Nat.le_gt_cases i j) as [Hij|Hij].
      - destruct (DE i j Hij Hi Hj) as [_ ->]. rewrite Ej, andb_false_r. auto.
      - destruct (DE j i (Nat.lt_le_incl _ _ Hij) Hj Hi) as [E1 E2]. rewrite <- E1, E2, Ej. auto. }
    rewrite DZ. cbn [mlin mang mzero].
    assert (Z : (if Nat.leb i j then @v3zero RScal else v3zero) = v3zero) by (destruct (Nat.leb i j); auto). rewrite Z.
    split; (eapply v3_deriv_ext; [intros x; rewrite JE; reflexivity|]); cbn [mlin mang mzero]; apply v3_deriv_const.
Qed.

Section Api.
Variable solve : list (list R) -> list R -> list R.
Variable pinv : list (list R) -> R -> list (list R) * bool.
Lemma c42 h ab z l off : reached solve pinv h ab -> base_fixed false h = true -> rigid_robot ab -> proper_joints ab -> idx (ab_dof ab) z = Some l ->
  exists H, outcome (ask solve pinv (QHess z off) ab) = Ok (AHess H) /\
    forall i, (i < ab_dof ab)%nat -> exists J, (forall x, Jacobian_q ab (replaced (ab_q ab) i x) z off = Ok (J x)) /\
    forall j, (j < ab_dof ab)%nat ->
      v3_deriv (fun x => mlin (col (J x) j)) (@coef RScal (ab_q ab) i) (mlin (hess_entry H i j)) /\
      v3_deriv (fun x => mang (col (J x) j)) (@coef RScal (ab_q ab) i) (if Nat.leb i j then mang (hess_entry H i j) else v3zero) /\
      hess_entry H i j = hess_entry H j i.
Proof.
  intros Rh Bf Rr Pj Hz. destruct (@reached_wfc RScal solve pinv (@laws_comm RScal RLaws) _ _ Rh Bf) as [T W].
  exists (mat (ab_dof ab) (ab_dof ab) (hessv ab l off)). split.
  { destruct Rh as (nm & mem & R0). rewrite (@c03_jac_exact RScal solve pinv (@laws_comm RScal RLaws) REq h ab mem (QHess z off)) by (auto; exists nm, mem; auto).
    cbn [ask]. rewrite outcome_wrap, (@cold_hess RScal ab mem z off T), Hz. reflexivity. }
  pose proof Hz as Hz'. apply idx_spec in Hz'. destruct Hz' as [Hl _].
  assert (HEn : forall i j, (i < ab_dof ab)%nat -> (j < ab_dof ab)%nat -> hess_entry (mat (ab_dof ab) (ab_dof ab) (hessv ab l off)) i j = hessv ab l off i j).
  { intros i j Hi Hj. unfold hess_entry, mat. rewrite (nth_vec (ab_dof ab) (fun i => vec (ab_dof ab) (hessv ab l off i))) by auto. apply nth_vec; auto. }
  intros i Hi. exists (fun x => Jall (at_ ab (replaced (ab_q ab) i x) (ab_dq ab)) l off). split.
  { intros x. apply (pos_at ab (replaced (ab_q ab) i x) (ab_dq ab) z l off); auto; [rewrite replaced_length; apply (tk_q _ T)|apply (tk_dq _ T)]. }
  intros j Hj. rewrite !HEn by auto.
  destruct (col_deriv ab (ab_q ab) i l off j T Rr Pj (tk_q _ T) Hl Hi Hj) as [D1 D2]. rewrite at_same in D1, D2. split; [exact D1|]. split; [exact D2|].
  destruct (Nat.le_gt_cases i j) as [Hij|Hij].
  - apply hess_val; auto.
  - symmetry. apply hess_val; auto. lia.
Qed.
End Api.
