(** Operational-space tasks at the API (C36). *)
From Coq Require Import List Arith ZArith Bool Lia.
From Verif Require Import Scalar Base Spatial SpecGeo Joint Body Kin InvDyn FwdDyn Opspace OpspaceAba Deriv Sim Ops Specs SpecCache SpecKin SpecDyn SpecOps SpatialProofs TreeProofs CacheProofs CacheOps BigSum DynProofs DynApi AbaApi OpsCache OpsApi OpsAlg.
Import ListNotations.

Section Gen.
Context {S : Scal}.
Local Open Scope k_scope.
Lemma ent_mat r c f i j : (i < r)%nat -> (j < c)%nat -> ent (mat r c f) i j = f i j.
Proof. intros Hi Hj. unfold ent, mat. rewrite (nth_vec r (fun i => vec c (f i))) by auto. apply nth_vec; auto. Qed.
Lemma sized_shape m n J : sized m n J -> shape (List.length J) n J = true.
Proof.
  intros [_ H]. unfold shape. rewrite Nat.eqb_refl. cbn. apply forallb_forall. intros r Hr. rewrite Forall_forall in H. apply Nat.eqb_eq. auto.
Qed.
Lemma mat_square n f : sized n n (mat n n f).
Proof.
  split; [apply mat_length|]. unfold mat. apply Forall_forall. intros r Hr. apply in_map_iff in Hr. destruct Hr as (i & <- & _). apply vec_length.
Qed.
Lemma lmulv_length r n A x : List.length (lmulv r n A x) = r.
Proof. apply vec_length. Qed.
Lemma coef_vadd m : forall a b i, List.length a = m -> List.length b = m -> (i < m)%nat -> qk (vadd a b) i = qk a i + qk b i.
Proof.
  unfold qk, vadd. induction m as [|m IH]; intros a b i Ha Hb Hi; [lia|]. destruct a as [|x a], b as [|y b]; try discriminate. cbn in Ha, Hb.
  destruct i; cbn; auto. apply IH; lia.
Qed.
Lemma vadd_length m a b : List.length a = m -> List.length b = m -> List.length (vadd a b) = m.
Proof. intros Ha Hb. unfold vadd. rewrite map_length, combine_length. lia. Qed.
Lemma jbt_length solve pinv ab J e x : List.length (jbt solve pinv ab J e x) = List.length J.
Proof. apply vec_length. Qed.
(** The form of every answer of InverseDynamics, whatever the cache holds. *)
Lemma oid_form solve pinv J ddx M fe b o ab ab' N t : ask solve pinv (QoID J ddx (Some M) fe b o) ab = Ok (ab', ANull N t) ->
  let n := ab_dof ab in let m := List.length J in let Jx := oid_J ab J (Some M) in
  exists F Jb, t = lmulv n m (ltr m n Jx) F /\
    N = Some (match M with nil => lsub n n (lid n) (lmul n m n Jb Jx) | _ => lmul n n n (lsub n n (lid n) (lmul n m n Jb Jx)) M end) /\
    match M with nil => True | _ => shape n n M = true end.
Proof.
  intros H. apply wrap_inv in H. destruct H as ([N0' t0] & H & E). inversion E; subst; clear E. unfold q_ops_InverseDynamics in H.
  destruct (negb _); [discriminate|].
  assert (G : match M with nil => True | _ => shape (ab_dof ab) (ab_dof ab) M = true end /\
          with_J J ab (ops_inverse_dynamics solve pinv ab J ddx (Some M) fe b o) = Ok (ab', (N0', t0))).
  { destruct M as [|r M]; [split; auto|]. destruct (shape _ _ (r :: M)) eqn:Es; [split; auto|discriminate]. }
  destruct G as [GS G]. clear H. unfold with_J in G. destruct (shape _ _ J); [|discriminate]. unfold on_cache in G. destruct (ab_cache ab) as [c|]; [|discriminate].
  unfold ops_inverse_dynamics in G. fold (oid_J ab J (Some M)) in G. cbn zeta in G. cbn zeta. unfold oid_J in *.
  set (Jx := match Some M with Some (_ :: _ as M) => lmul (List.length J) (ab_dof ab) (ab_dof ab) J M | _ => J end) in *.
  repeat match type of G with context [let '(c, F) := ?e in _] => lazymatch e with (_, _) => fail | _ => destruct e as [? ?] end end.
  destruct (if p_cc o then _ else _) as [[c2 F2]| |]; cbn [bind] in G; try discriminate.
  destruct (if p_fric o then _ else _) as [c3 F3]. inversion G; subst.
  eexists F3, _. split; [reflexivity|]. split; [|exact GS]. reflexivity.
Qed.
End Gen.

Section OpsTask.
Context {S : Scal} {L : ScalLaws S} {PL : PosLaws S} {ES : EqSound S}.
Add Field kf2 : (@kfield S L).
Local Open Scope k_scope.
Variable solve : list (list K) -> list K -> list K.
Variable pinv : list (list K) -> K -> list (list K) * bool.

Section Robot.
Variable ab : body.
Hypothesis T : tree_ok ab.
Hypothesis P : proper ab.
Let n := ab_dof ab.
Hypothesis SO : solver_ok solve n (mat n n (Av ab)).
Section J.
Variables (J : lmat) (m : nat) (e : K).
Hypothesis HJ : sized m n J.
Let X i j := ent (xv solve ab J) i j.
Let Li i j := ent (linvv solve ab J) i j.
Let La i j := ent (lamv solve pinv ab J e) i j.
Let Jf i j := ent J i j.
Lemma row_length k : (k < m)%nat -> List.length (nth k J nil) = n.
Proof. intros H. destruct HJ as [E F]. rewrite Forall_forall in F. apply F. apply nth_In. lia. Qed.
Lemma X_col k i : (k < n)%nat -> (i < m)%nat -> X k i = coef (solve (mat n n (Av ab)) (nth i J nil)) k.
Proof.
  intros Hk Hi. destruct HJ as [E _]. unfold X, xv, ltr. rewrite E. fold n. rewrite ent_mat by auto. unfold ent, coef. f_equal.
  rewrite (nth_indep _ nil (solve (mat n n (Av ab)) nil)) by (rewrite map_length; lia). apply map_nth.
Qed.
Lemma A_X : eqm n m (fm n (Av ab) X) (ft Jf).
Proof.
  intros k i Hk Hi. destruct (SO (nth i J nil) (row_length i Hi)) as [_ H]. specialize (H k Hk). unfold row_times in H. rewrite total_ksum in H.
  unfold ft, Jf, ent. unfold coef in H at 2. rewrite <- H. apply ksum_ext. intros l Hl. rewrite entry_mat by auto. f_equal. apply X_col; auto.
Qed.
Lemma Li_eq : eqm m m Li (fm n Jf X).
Proof. intros i j Hi Hj. destruct HJ as [E _]. unfold Li, linvv. fold n. unfold lmul. rewrite E, ent_mat by auto. reflexivity. Qed.
Lemma Jb_eq : eqm n m (ent (jbv solve pinv ab J e)) (Jbf m X La).
Proof. intros i j Hi Hj. destruct HJ as [E _]. unfold jbv. fold n. unfold lmul. rewrite E, ent_mat by auto. reflexivity. Qed.
Lemma AvS i j : (i < n)%nat -> (j < n)%nat -> Av ab i j = Av ab j i.
Proof. intros. apply Av_sym; auto. Qed.
Hypothesis IV : inverse_of m (linvv solve ab J) (lamv solve pinv ab J e).
Lemma IV1 : eqm m m (fm m Li La) delta.
Proof. intros i j Hi Hj. destruct (IV i j Hi Hj) as [H _]. unfold prod_at in H. rewrite total_ksum in H. exact H. Qed.
Lemma IV2 : eqm m m (fm m La Li) delta.
Proof. intros i j Hi Hj. destruct (IV i j Hi Hj) as [_ H]. unfold prod_at in H. rewrite total_ksum in H. exact H. Qed.
Definition n1 : nat -> nat -> K := Nf m Jf X La.
(** Bias torques B, compensated in the task; anything in the range of N' added. *)
Lemma top_acc a F y ddx B i : (i < m)%nat ->
  (forall j, (j < m)%nat -> F j = ksum m (fun k => La j k * ddx k) + ksum n (fun k => Jbf m X La k j * B k)) ->
  (forall k, (k < n)%nat -> ksum n (fun l => Av ab k l * a l) = ksum m (fun j => Jf j k * F j) + ksum n (fun l => n1 l k * y l) - B k) ->
  ksum n (fun k => Jf i k * a k) = ddx i.
Proof.
  intros Hi HF Ha. rewrite (task_acc n m (Av ab) Jf X AvS A_X a _ i Hi Ha).
  rewrite (ksum_ext _ _ (fun k => (X k i * ksum m (fun j => Jf j k * F j) + X k i * ksum n (fun l => n1 l k * y l)) + (- (1)) * (X k i * B k))) by (intros; ring).
  rewrite !ksum_add, ksum_scale.
  rewrite (acc_force n m (Av ab) Jf X Li AvS A_X Li_eq F i Hi).
  change (ksum n (fun k => X k i * ksum n (fun l => n1 l k * y l))) with (ksum n (fun k => X k i * ksum n (fun l => Nf m Jf X La l k * y l))).
  rewrite (acc_null n m Jf X Li La Li_eq IV2 y i Hi).
  rewrite (ksum_ext m _ (fun j => Li i j * ksum m (fun k => La j k * ddx k) + Li i j * ksum n (fun k => Jbf m X La k j * B k)))
    by (intros j Hj; rewrite HF by auto; ring).
  rewrite ksum_add. rewrite (acc_bias n m (Av ab) Jf X Li La AvS A_X Li_eq IV1 B i Hi).
  replace (ksum m (fun k => Li i k * ksum m (fun l => La k l * ddx l))) with (ddx i); [ring|].
  transitivity (fm m (fm m Li La) (fun k _ => ddx k) i 0).
  - rewrite (fm_ext m _ delta _ (fun k _ => ddx k)) by (auto; intros; apply IV1; auto). rewrite fm_delta_l by auto. auto.
  - rewrite fm_assoc. reflexivity.
Qed.
End J.
Lemma ent_N J m e : sized m n J -> forall i j, (i < n)%nat -> (j < n)%nat ->
  ent (lsub n n (lid n) (lmul n m n (jbv solve pinv ab J e) J)) i j = n1 J m e i j.
Proof.
  intros HJ i j Hi Hj. unfold lsub, lid, lmul. rewrite !ent_mat by auto. unfold n1, Nf, delta. f_equal.
  apply ksum_ext. intros k Hk. f_equal. apply (Jb_eq J m e HJ); auto.
Qed.
End Robot.

Lemma lmulv_coef r n A x i : (i < r)%nat -> qk (lmulv r n A x) i = ksum n (fun k => ent A i k * qk x k).
Proof. intros H. unfold lmulv. rewrite qk_vec by auto. reflexivity. Qed.
Lemma ext_none' ab fe : tree_ok ab -> proper ab -> (forall k, fe k = None) -> forall i, (i < ab_dof ab)%nat -> Extv ab fe i = 0.
Proof.
  intros T P H i Hi. rewrite <- (ext_none ab T P i Hi). apply back_ext; auto; [apply P|]. intros k Hk. unfold ext_f0. rewrite H. auto.
Qed.

(** Lower tasks only add torques in the range of N'. *)
Section Lower.
Variables (n : nat) (N1 : nat -> nat -> K).
Definition through (N : lmat) : Prop := List.length N = n /\ exists Q, forall i j, (i < n)%nat -> (j < n)%nat -> ent N i j = fm n Q N1 i j.
Definition nullt (t1 t : list K) : Prop := exists y, forall k, (k < n)%nat -> qk t k = qk t1 k + ksum n (fun l => N1 l k * y l).
Lemma lower_torque m Q J N F k : (k < n)%nat -> (forall i j, (i < n)%nat -> (j < n)%nat -> ent N i j = fm n Q N1 i j) ->
  coef (lmulv n m (ltr m n (lmul m n n J N)) F) k = ksum n (fun l => N1 l k * ksum n (fun k => Q k l * ksum m (fun a => ent J a k * qk F a))).
Proof.
  intros Hk HQ. change (coef (lmulv n m (ltr m n (lmul m n n J N)) F) k) with (qk (lmulv n m (ltr m n (lmul m n n J N)) F) k).
  rewrite lmulv_coef by auto.
  transitivity (fm m (fm n (fm n (ft N1) (ft Q)) (ft (ent J))) (fun a _ => qk F a) k 0).
  - apply ksum_ext. intros a Ha. f_equal. unfold ltr, lmul. rewrite !ent_mat by auto. rewrite (fm_tr n (fm n (ft N1) (ft Q)) (ft (ent J)) k a).
    change (ft (ft (ent J))) with (ent J). apply ksum_ext. intros l Hl. f_equal. rewrite HQ by auto. unfold ft at 1. rewrite fm_tr. reflexivity.
  - rewrite !fm_assoc. apply ksum_ext. intros l Hl. unfold ft at 1. f_equal.
Qed.
Hypothesis Hpos : (0 < n)%nat.
Lemma lower_control tasks : forall N tau ab ab' tau' t1, ab_dof ab = n -> through N -> nullt t1 tau ->
  control solve pinv tasks N tau ab = Some (ab', tau') -> nullt t1 tau'.
Proof.
  induction tasks as [|t tasks IH]; intros N tau ab ab' tau' t1 Hn HN Ht E; cbn [control] in E.
  - inversion E; subst. auto.
  - destruct (ask solve pinv _ ab) as [[ab1 a]| |] eqn:Ea; try discriminate. destruct a as [| | | | | | | | | |[N'|] t']; try discriminate.
    pose proof (ask_frame solve pinv _ _ _ _ Ea) as [c Ec]. destruct (oid_form _ _ _ _ _ _ _ _ _ _ _ _ Ea) as (F & Jb & E1 & E2 & _).
    destruct HN as [HN [Q HQ]]. destruct N as [|r N]; [cbn in HN; lia|]. cbn [oid_J] in E1, E2. rewrite Hn in E1, E2, E.
    set (m := List.length (t_J t)) in *. apply (IH N' (map (fun k => coef tau k + coef t' k) (seq 0 n)) ab1 ab' tau' t1); [subst ab1; exact Hn| | |exact E].
    + inversion E2 as [E3]. clear E2 E. subst N'. set (M := lsub n n _ _). clearbody M. split; [apply mat_length|].
      exists (fm n (ent M) Q). intros i j Hi Hj. unfold lmul at 1. rewrite ent_mat by auto. rewrite fm_assoc. apply ksum_ext. intros k Hk. f_equal. apply HQ; auto.
    + destruct Ht as [y Hy].
      exists (fun l => y l + ksum n (fun k => Q k l * ksum m (fun a => ent (t_J t) a k * qk F a))).
      intros k Hk. change (map (fun k => coef tau k + coef t' k) (seq 0 n)) with (vec n (fun k => coef tau k + coef t' k)).
      rewrite qk_vec by auto. change (coef tau k) with (qk tau k). rewrite Hy by auto.
      rewrite (ksum_ext n (fun l => N1 l k * (y l + _)) (fun l => N1 l k * y l + N1 l k * ksum n (fun k => Q k l * ksum m (fun a => ent (t_J t) a k * qk F a)))) by (intros; ring).
      rewrite ksum_add. subst t'. rewrite (lower_torque m Q (t_J t) (r :: N) F k) by auto. ring.
Qed.
End Lower.

Lemma control_state {AC : AddComm S} tasks : forall N tau ab ab' tau', tree_ok ab -> wfc ab -> control solve pinv tasks N tau ab = Some (ab', tau') ->
  tree_ok ab' /\ wfc ab' /\ exists c, ab' = set_cache ab (Some c).
Proof.
  induction tasks as [|t tasks IH]; intros N tau ab ab' tau' T W E; cbn [control] in E.
  - inversion E; subst. split; [auto|split; auto]. destruct W as (c & Ec & _). exists c. destruct ab'. cbn in *. subst. reflexivity.
  - destruct (ask solve pinv _ ab) as [[ab1 a]| |] eqn:Ea; try discriminate. destruct a as [| | | | | | | | | |[N'|] t']; try discriminate.
    pose proof (ask_frame solve pinv _ _ _ _ Ea) as [c Ec]. pose proof (ask_inv solve pinv _ _ _ _ T W Ea) as W1.
    apply IH in E; auto; [|subst ab1; apply tree_set_cache; auto]. destruct E as (T' & W' & c' & ->). split; [auto|split; [auto|]]. exists c'. subst ab1. reflexivity.
Qed.
Lemma control_length tasks : forall N tau ab ab' tau', List.length tau = ab_dof ab -> control solve pinv tasks N tau ab = Some (ab', tau') ->
  List.length tau' = ab_dof ab.
Proof.
  induction tasks as [|t tasks IH]; intros N tau ab ab' tau' Hl E; cbn [control] in E.
  - inversion E; subst. auto.
  - destruct (ask solve pinv _ ab) as [[ab1 a]| |] eqn:Ea; try discriminate. destruct a as [| | | | | | | | | |[N'|] t']; try discriminate.
    pose proof (ask_frame solve pinv _ _ _ _ Ea) as [c Ec]. apply IH in E; subst ab1; auto. rewrite map_length, seq_length. reflexivity.
Qed.
Lemma proper_cache ab c : proper ab -> proper (set_cache ab c).
Proof. intros [A B C]. constructor; auto. Qed.

(** ** C36 *)
Lemma c36_top h ab e J ddx fe b o N1 t1 A Li m : reached solve pinv h ab -> base_fixed false h = true -> one_threshold e h -> proper ab ->
  outcome (ask solve pinv QInertia ab) = Ok (AMat A) -> solver_ok solve (ab_dof ab) A ->
  sized m (ab_dof ab) J -> List.length ddx = m ->
  outcome (ask solve pinv (QoLinv J) ab) = Ok (AMat Li) -> inverse_of m Li (fst (pinv Li e)) ->
  p_svd o = e -> p_cc o = false -> p_fric o = false -> klt 0 (p_facc o) = false ->
  (b = true -> forall k, fe k = None) ->
  outcome (ask solve pinv (QoID J ddx (Some nil) fe b o) ab) = Ok (ANull (Some N1) t1) ->
  through (ab_dof ab) (n1 ab J m e) N1 /\
  forall tau ab', List.length tau = ab_dof ab -> nullt (ab_dof ab) (n1 ab J m e) t1 tau -> tree_ok ab' -> wfc ab' -> (exists c, ab' = set_cache ab (Some c)) ->
  forall st, exists ddq, outcome (ask solve pinv (QFD tau fe (IdOpts (p_grav o) false false st)) ab') = Ok (AVec ddq) /\
    List.length ddq = ab_dof ab /\
    forall i, (i < m)%nat -> row_times (ab_dof ab) J ddq i = coef ddx i.
Proof.
  intros R B OT P EA SO HJ Hd EL IV He Hc Hf Hcl HE Eo.
  assert (AC : AddComm S) by apply laws_comm. destruct (reached_wfc solve pinv h ab R B) as [T W].
  pose proof (reached_wop solve pinv (Some e) h ab R B (oone_some e h OT)) as O.
  pose proof (reached_wop solve pinv None h ab R B (oone_none h)) as O0.
  set (n := ab_dof ab) in *.
  cbn [ask] in EA. rewrite outcome_wrap, (out_Inertia ab T W) in EA. inversion EA; subst A; clear EA.
  cbn [ask] in EL. rewrite outcome_wrap, (out_oLinv solve pinv ab T W O0) in EL. unfold sh in EL. fold n in EL. rewrite (sized_shape m n J HJ) in EL. inversion EL; subst Li; clear EL.
  fold (lamv solve pinv ab J e) in IV.
  assert (LJ : List.length J = m) by apply HJ.
  assert (V : oid_val solve pinv ab J ddx (Some nil) fe b o = Ok (Some N1, t1)).
  { pose proof Eo as X.
    cbn [ask] in X. rewrite outcome_wrap, (out_oID solve pinv ab T W e O) in X by (auto; congruence).
    unfold oid_pre, sh in X. fold n in X. rewrite Hd, LJ, Nat.eqb_refl in X. rewrite <- LJ in X. rewrite (sized_shape m n J HJ) in X. cbn in X.
    destruct (oid_val _ _ _ _ _ _ _ _ _) as [[x y]| |]; inversion X; subst; auto. }
  unfold oid_val in V. rewrite Hc in V. cbn [bind oid_J] in V. rewrite LJ in V. fold n in V.
  unfold oid_F1 in V. rewrite Hf in V. unfold oid_F0 in V. rewrite He, LJ in V. unfold clip_force in V. rewrite Hcl in V. fold n in V.
  cbn [oid_N] in V. rewrite He in V.
  set (F := if p_grav o then _ else _) in V. inversion V as [[EN Et]]; clear V. fold n in EN. rewrite LJ in EN.
  (* the force *)
  set (Bf := fun k => (if p_grav o then Gv ab k else 0) + Extv ab fe k).
  assert (Jt : forall x j, (j < m)%nat -> qk (jbt solve pinv ab J e x) j = ksum n (fun k => Jbf m (ent (xv solve ab J)) (ent (lamv solve pinv ab J e)) k j * qk x k)).
  { intros x j Hj. unfold jbt. rewrite LJ. fold n. rewrite lmulv_coef by auto. apply ksum_ext. intros k Hk. f_equal. unfold ltr. rewrite ent_mat by auto.
    apply (Jb_eq ab J m e HJ); auto. }
  assert (HF : forall j, (j < m)%nat -> qk F j = ksum m (fun k => ent (lamv solve pinv ab J e) j k * coef ddx k) +
     ksum n (fun k => Jbf m (ent (xv solve ab J)) (ent (lamv solve pinv ab J e)) k j * Bf k)).
  { intros j Hj. rewrite (ksum_ext n _ (fun k => (if p_grav o then Jbf m (ent (xv solve ab J)) (ent (lamv solve pinv ab J e)) k j * Gv ab k else 0) +
        Jbf m (ent (xv solve ab J)) (ent (lamv solve pinv ab J e)) k j * Extv ab fe k)) by (intros; unfold Bf; destruct (p_grav o); ring).
    rewrite ksum_add.
    set (F1 := if b then _ else _) in F.
    assert (H1 : List.length F1 = m) by (unfold F1; destruct b; [apply vec_length|apply vadd_length; [apply vec_length|rewrite jbt_length; auto]]).
    assert (H2 : qk F1 j = ksum m (fun k => ent (lamv solve pinv ab J e) j k * coef ddx k) + ksum n (fun k => Jbf m (ent (xv solve ab J)) (ent (lamv solve pinv ab J e)) k j * Extv ab fe k)).
    { unfold F1. destruct b.
      - rewrite lmulv_coef by auto. rewrite (ksum_zero n); [unfold coef, qk; ring|]. intros k Hk. rewrite (ext_none' ab fe T P (HE eq_refl) k Hk). ring.
      - rewrite (coef_vadd m) by (rewrite ?lmulv_length, ?jbt_length; auto). rewrite lmulv_coef, Jt by auto. f_equal. apply ksum_ext. intros k Hk. rewrite qk_vec by auto. auto. }
    unfold F. destruct (p_grav o).
    - rewrite (coef_vadd m) by (rewrite ?jbt_length; auto). rewrite H2, Jt by auto.
      rewrite (ksum_ext n (fun k => _ * qk (vec _ (Gv ab)) k) (fun k => Jbf m (ent (xv solve ab J)) (ent (lamv solve pinv ab J e)) k j * Gv ab k)) by (intros; rewrite qk_vec by auto; auto). ring.
    - rewrite H2. rewrite (ksum_zero n (fun _ => 0)) by auto. ring. }
  split.
  { rewrite ?LJ. rewrite <- ?EN. split; [apply mat_length|]. exists delta. intros i j Hi Hj. rewrite fm_delta_l by auto. rewrite ?LJ. apply (ent_N ab J m e HJ); auto. }
  intros tau ab' Hl [y Hy] T' W' [c' E'] st.
  assert (P' : proper ab') by (subst ab'; apply proper_cache; auto).
  cbn [ask]. rewrite outcome_wrap, (out_FD solve ab' T' W') by auto. replace (ab_dof ab') with n by (subst ab'; reflexivity). rewrite Hl, Nat.eqb_refl.
  replace (Av ab') with (Av ab) by (subst ab'; reflexivity).
  destruct (SO (vec n (fd_rhs ab' tau fe (IdOpts (p_grav o) false false st)))) as [Hs1 Hs2]; [apply vec_length|].
  eexists. split; [reflexivity|]. split; [exact Hs1|]. intros i Hi. unfold row_times. rewrite total_ksum.
  apply (top_acc ab T P SO J m e HJ IV _ (qk F) y (coef ddx) Bf i Hi HF).
  intros k Hk. specialize (Hs2 k Hk). unfold row_times in Hs2. rewrite total_ksum, coef_vec in Hs2 by auto.
  etransitivity; [|etransitivity; [exact Hs2|]]; [apply ksum_ext; intros l Hl'; rewrite entry_mat by auto; reflexivity|].
  unfold fd_rhs. cbn [o_fric o_cc o_grav]. rewrite Hy by auto. rewrite ?LJ. rewrite <- ?Et. rewrite lmulv_coef by auto. subst ab'. unfold Bf.
  change (Gv (set_cache ab (Some c')) k) with (Gv ab k). change (Extv (set_cache ab (Some c')) fe k) with (Extv ab fe k).
  rewrite (ksum_ext m _ (fun j => ent J j k * qk F j)) by (intros j Hj; unfold ltr; rewrite ent_mat by auto; auto).
  fold n. destruct (p_grav o); ring.
Qed.

Lemma c36_stack h ab e t0 rest ab' tau A Li m : reached solve pinv h ab -> base_fixed false h = true -> one_threshold e h -> proper ab ->
  outcome (ask solve pinv QInertia ab) = Ok (AMat A) -> solver_ok solve (ab_dof ab) A ->
  sized m (ab_dof ab) (t_J t0) -> List.length (t_ddx t0) = m ->
  outcome (ask solve pinv (QoLinv (t_J t0)) ab) = Ok (AMat Li) -> inverse_of m Li (fst (pinv Li e)) ->
  p_svd (t_o t0) = e -> p_cc (t_o t0) = false -> p_fric (t_o t0) = false -> klt 0 (p_facc (t_o t0)) = false ->
  (t_fe_empty t0 = true -> forall k, t_fe t0 k = None) ->
  control solve pinv (t0 :: rest) nil (repeat 0 (ab_dof ab)) ab = Some (ab', tau) ->
  forall st, exists ddq, outcome (ask solve pinv (QFD tau (t_fe t0) (IdOpts (p_grav (t_o t0)) false false st)) ab') = Ok (AVec ddq) /\
    List.length ddq = ab_dof ab /\
    forall i, (i < m)%nat -> row_times (ab_dof ab) (t_J t0) ddq i = coef (t_ddx t0) i.
Proof.
  intros R B OT P EA SO HJ Hd EL IV He Hc Hf Hcl HE Ctl st.
  assert (AC : AddComm S) by apply laws_comm. destruct (reached_wfc solve pinv h ab R B) as [T W].
  cbn [control] in Ctl.
  destruct (ask solve pinv (QoID (t_J t0) (t_ddx t0) (Some nil) (t_fe t0) (t_fe_empty t0) (t_o t0)) ab) as [[ab1 a]| |] eqn:Ea; try discriminate.
  destruct a as [| | | | | | | | | |[N1|] t1]; try discriminate.
  pose proof (ask_frame solve pinv _ _ _ _ Ea) as [c1 Ec1].
  pose proof (ask_inv solve pinv _ _ _ _ T W Ea) as W1.
  destruct (c36_top h ab e (t_J t0) (t_ddx t0) (t_fe t0) (t_fe_empty t0) (t_o t0) N1 t1 A Li m R B OT P EA SO HJ Hd EL IV He Hc Hf Hcl HE) as [TH X]; [rewrite Ea; reflexivity|].
  destruct (control_state rest N1 _ ab1 ab' tau ltac:(subst ab1; apply tree_set_cache; auto) W1 Ctl) as (T' & W' & c' & E').
  apply X; auto.
  - transitivity (ab_dof ab1); [|rewrite Ec1; reflexivity]. eapply control_length; [|exact Ctl]. rewrite map_length, seq_length. rewrite Ec1. reflexivity.
  - destruct (Nat.eq_dec (ab_dof ab) 0) as [Z|NZ]; [exists (fun _ => 0); intros k Hk; lia|].
    apply (lower_control (ab_dof ab) (n1 ab (t_J t0) m e) ltac:(lia) rest N1 (map (fun k => coef (repeat 0 (ab_dof ab)) k + coef t1 k) (seq 0 (ab_dof ab))) ab1 ab' tau t1); [subst ab1; reflexivity|exact TH| |exact Ctl].
    exists (fun _ => 0). intros k Hk. change (map (fun k => coef (repeat 0 (ab_dof ab)) k + coef t1 k) (seq 0 (ab_dof ab))) with (vec (ab_dof ab) (fun k => coef (repeat 0 (ab_dof ab)) k + coef t1 k)).
    rewrite qk_vec by auto. rewrite (ksum_zero (ab_dof ab)) by (intros; ring).
    replace (coef (repeat 0 (ab_dof ab)) k) with (0 : K); [unfold coef, qk; ring|]. unfold coef. symmetry. apply nth_repeat.
  - exists c'. rewrite E', Ec1. reflexivity.
Qed.

Lemma prod_fm n A B i j : prod_at n A B i j = fm n (entry A) (entry B) i j.
Proof. unfold prod_at. apply total_ksum. Qed.
Lemma c36_inverses h ab J e m : reached solve pinv h ab -> base_fixed false h = true -> one_threshold e h -> proper ab -> sized m (ab_dof ab) J ->
  exists A Li La Jb,
    outcome (ask solve pinv QInertia ab) = Ok (AMat A) /\
    outcome (ask solve pinv (QoLinv J) ab) = Ok (AMat Li) /\
    outcome (ask solve pinv (QoLambda J e) ab) = Ok (AMat La) /\
    outcome (ask solve pinv (QoJbar J e) ab) = Ok (AMat Jb) /\
    sized m m Li /\ sized (ab_dof ab) m Jb /\ La = fst (pinv Li e) /\
    (solver_ok solve (ab_dof ab) A ->
     (exists X, sized (ab_dof ab) m X /\
        (forall k i, (k < ab_dof ab)%nat -> (i < m)%nat -> prod_at (ab_dof ab) A X k i = entry J i k) /\
        (forall i j, (i < m)%nat -> (j < m)%nat -> entry Li i j = prod_at (ab_dof ab) J X i j)) /\
     (forall i j, (i < m)%nat -> (j < m)%nat -> entry Li i j = entry Li j i) /\
     (inverse_of m Li (fst (pinv Li e)) ->
      inverse_of m Li La /\
      (forall i j, (i < m)%nat -> (j < m)%nat -> entry La i j = entry La j i) /\
      (forall i j, (i < m)%nat -> (j < m)%nat -> prod_at (ab_dof ab) J Jb i j = delta i j) /\
      (forall k i, (k < ab_dof ab)%nat -> (i < m)%nat -> prod_at (ab_dof ab) A Jb k i = total (map (fun a => entry J a k * entry La a i) (seq 0 m))) /\
      (forall N, (forall i j, (i < ab_dof ab)%nat -> (j < ab_dof ab)%nat -> entry N i j = delta i j - prod_at m Jb J i j) ->
        forall i j, (j < ab_dof ab)%nat ->
          ((i < ab_dof ab)%nat -> prod_at (ab_dof ab) N N i j = entry N i j) /\
          ((i < m)%nat -> prod_at (ab_dof ab) J N i j = 0) /\
          ((i < ab_dof ab)%nat -> prod_at (ab_dof ab) A N i j = prod_at (ab_dof ab) A N j i)))).
Proof.
  intros R B OT P HJ.
  assert (AC : AddComm S) by apply laws_comm. destruct (reached_wfc solve pinv h ab R B) as [T W].
  pose proof (reached_wop solve pinv (Some e) h ab R B (oone_some e h OT)) as O.
  pose proof (reached_wop solve pinv None h ab R B (oone_none h)) as O0.
  assert (SH : sh ab J = true) by (apply (sized_shape m); auto). assert (LJ : List.length J = m) by apply HJ.
  exists (mat (ab_dof ab) (ab_dof ab) (Av ab)), (linvv solve ab J), (lamv solve pinv ab J e), (jbv solve pinv ab J e). cbn [ask].
  rewrite !outcome_wrap, (out_Inertia ab T W), (out_oLinv solve pinv ab T W O0), (out_oLam solve pinv ab T W O0), (out_oJb solve pinv ab T W e O), SH.
  assert (SZ : forall r c f, sized r c (mat r c f)).
  { intros. split; [apply mat_length|]. unfold mat. apply Forall_forall. intros x Hr. apply in_map_iff in Hr. destruct Hr as (i & <- & _). apply vec_length. }
  repeat (split; [reflexivity|]). split; [unfold linvv, lmul; rewrite LJ; apply SZ|]. split; [unfold jbv, lmul; rewrite LJ; apply SZ|]. split; [reflexivity|].
  set (n := ab_dof ab) in *. intros SO.
  assert (EA : forall i j, (i < n)%nat -> (j < n)%nat -> entry (mat n n (Av ab)) i j = Av ab i j) by (intros; apply entry_mat; auto).
  pose proof (A_X ab SO J m HJ) as AX. pose proof (Li_eq ab J m HJ) as LE. fold n in AX, LE.
  pose proof (AvS ab T P) as AS. fold n in AS.
  split; [|split].
  - exists (xv solve ab J). split; [unfold xv; fold n; unfold ltr; rewrite LJ; apply SZ|]. split.
    + intros k i Hk Hi. rewrite prod_fm. etransitivity; [|apply (AX k i Hk Hi)]. apply fm_ext; auto.
    + intros i j Hi Hj. rewrite prod_fm. apply (LE i j Hi Hj).
  - intros i j Hi Hj. apply (Li_sym n m (Av ab) (ent J) (ent (xv solve ab J)) (ent (linvv solve ab J)) AS AX LE); auto.
  - fold (lamv solve pinv ab J e). intros IV. pose proof (IV1 ab J m e IV) as I1. pose proof (IV2 ab J m e IV) as I2. pose proof (Jb_eq ab J m e HJ) as JE. fold n in JE.
    assert (LS : forall i j, (i < m)%nat -> (j < m)%nat -> entry (lamv solve pinv ab J e) i j = entry (lamv solve pinv ab J e) j i).
    { intros i j Hi Hj. apply (La_sym n m (Av ab) (ent J) (ent (xv solve ab J)) (ent (linvv solve ab J)) (ent (lamv solve pinv ab J e)) AS AX LE I1); auto. }
    split; [exact IV|]. split; [exact LS|]. split; [|split].
    + intros i j Hi Hj. rewrite prod_fm. rewrite <- (J_Jb n m (ent J) (ent (xv solve ab J)) (ent (linvv solve ab J)) (ent (lamv solve pinv ab J e)) LE I1 i j Hi Hj).
      apply fm_ext; [auto|]. intros k Hk. apply (JE k j); auto.
    + intros k i Hk Hi. rewrite prod_fm, total_ksum.
      etransitivity; [|apply (A_Jb n m (Av ab) (ent J) (ent (xv solve ab J)) (ent (lamv solve pinv ab J e)) AX k i Hk Hi)]. apply fm_ext; [auto|]. intros l Hl. apply (JE l i); auto.
    + intros N HN.
      assert (HN' : eqm n n (entry N) (Nf m (ent J) (ent (xv solve ab J)) (ent (lamv solve pinv ab J e)))).
      { intros i j Hi Hj. rewrite HN by auto. unfold Nf. f_equal. rewrite prod_fm. apply fm_ext; [|auto]. intros k Hk. apply (JE i k); auto. }
      intros i j Hj. split; [|split]; intros Hi; rewrite !prod_fm.
      * rewrite (HN' i j) by auto. rewrite <- (N_N n m (ent J) (ent (xv solve ab J)) (ent (linvv solve ab J)) (ent (lamv solve pinv ab J e)) LE I1 i j Hi Hj). apply fm_ext; intros; apply HN'; auto.
      * rewrite <- (J_N n m (ent J) (ent (xv solve ab J)) (ent (linvv solve ab J)) (ent (lamv solve pinv ab J e)) LE I1 i j Hi Hj). apply fm_ext; [auto|]. intros; apply HN'; auto.
      * transitivity (fm n (Av ab) (Nf m (ent J) (ent (xv solve ab J)) (ent (lamv solve pinv ab J e))) i j); [apply fm_ext; auto|].
        rewrite (A_N n m (Av ab) (ent J) (ent (xv solve ab J)) (ent (linvv solve ab J)) (ent (lamv solve pinv ab J e)) AS AX LE I1 i j Hi Hj). apply fm_ext; intros; symmetry; [apply EA|apply HN']; auto.
Qed.
(** Task-space gravity and external forces are the joint-space ones seen through J_bar. *)
Lemma c36_projected h ab J e m fe : reached solve pinv h ab -> base_fixed false h = true -> one_threshold e h -> sized m (ab_dof ab) J ->
  exists G E Jb g f,
    outcome (ask solve pinv QGrav ab) = Ok (AVec G) /\ outcome (ask solve pinv (QExt fe) ab) = Ok (AVec E) /\
    outcome (ask solve pinv (QoJbar J e) ab) = Ok (AMat Jb) /\
    outcome (ask solve pinv (QoGrav J e) ab) = Ok (AVec g) /\ outcome (ask solve pinv (QoExt J fe e) ab) = Ok (AVec f) /\
    List.length g = m /\ List.length f = m /\
    forall i, (i < m)%nat ->
      coef g i = total (map (fun k => entry Jb k i * coef G k) (seq 0 (ab_dof ab))) /\
      coef f i = total (map (fun k => entry Jb k i * coef E k) (seq 0 (ab_dof ab))).
Proof.
  intros R B OT HJ.
  assert (AC : AddComm S) by apply laws_comm. destruct (reached_wfc solve pinv h ab R B) as [T W].
  pose proof (reached_wop solve pinv (Some e) h ab R B (oone_some e h OT)) as O.
  assert (SH : sh ab J = true) by (apply (sized_shape m); auto). assert (LJ : List.length J = m) by apply HJ.
  do 5 eexists. cbn [ask]. rewrite !outcome_wrap, (out_Grav ab T W), (out_Ext ab T W), (out_oJb solve pinv ab T W e O), (out_oGrav solve pinv ab T W e O), (out_oExt solve pinv ab T W e O), SH.
  repeat (split; [reflexivity|]). rewrite !jbt_length. split; [auto|]. split; [auto|].
  assert (X : forall x i, (i < m)%nat -> coef (jbt solve pinv ab J e x) i = total (map (fun k => entry (jbv solve pinv ab J e) k i * coef x k) (seq 0 (ab_dof ab)))).
  { intros x i Hi. unfold jbt. rewrite LJ. change (coef ?v i) with (qk v i). rewrite lmulv_coef by auto. rewrite total_ksum. apply ksum_ext. intros k Hk. unfold ltr. rewrite ent_mat by auto. reflexivity. }
  intros i Hi. split; apply X; auto.
Qed.
End OpsTask.
