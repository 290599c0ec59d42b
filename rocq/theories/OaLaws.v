(** The articulated-body task quantities are those of the inertia matrix. *)
From Coq Require Import List Arith ZArith Bool Lia Ring Field.
From Verif Require Import Scalar Base Spatial SpecGeo Joint Body Kin InvDyn FwdDyn Opspace OpspaceAba Deriv Sim Ops Control Specs SpecCache SpecKin SpecDyn SpecAba SpatialTac SpatialProofs TreeProofs CacheProofs CacheOps BigSum KinProofs WorldProofs DynProofs AbaProofs AinvProofs AbaOps AbaLaws LoadProofs DynApi AbaCache AbaApi SpecOps OpsCache OpsAlg OpsApi OpsTask OaValues.
Import ListNotations.

Section OaLaws.
Context {S : Scal} {L : ScalLaws S} {PL : PosLaws S}.
Local Open Scope k_scope.
Add Field kf : (@kfield S L).
Variable solve : list (list K) -> list K -> list K.
Variable pinv : list (list K) -> K -> list (list K) * bool.
Variable ab : body.
Hypothesis T : tree_ok ab.
Hypothesis P : proper ab.
Hypothesis AR : articulable ab.
Let n := ab_dof ab.
Let RR := pr_rigid _ P.
Let A := mat n n (Av ab).

(** ** Seen from the point of the link *)
Definition atp (p : v3) (m : motion) : motion := Mot (v3add (mlin m) (v3cross (mang m) p)) (mang m).
Lemma turn_acc X m : mact (Iso (rot X) v3zero) m = atp (tra X) (mact X m).
Proof. destruct X as [R t], m as [a w]. unfold atp, mact. cbn [rot tra mlin mang]. generalize (m3mulv R a) (m3mulv R w). intros a' w'. vring. Qed.
Lemma atp_add p a b : atp p (madd a b) = madd (atp p a) (atp p b). Proof. unfold atp. vring. Qed.
Lemma atp_zero p : atp p mzero = mzero. Proof. unfold atp. vring. Qed.
Lemma atp_scale p k a : atp p (mscale k a) = mscale k (atp p a). Proof. unfold atp. vring. Qed.
Lemma app_zero X : iso_app X v3zero = tra X.
Proof. destruct X as [[[] [] []] []]. unfold iso_app. cbn [rot tra]. vring. Qed.
Lemma jac0 l j : (l < n)%nat -> (j < n)%nat -> jacv ab l v3zero j = if ancb ab j l then atp (tra (twv ab l)) (Sw ab j) else mzero.
Proof. intros Hl Hj. rewrite jac_point by auto. rewrite app_zero. reflexivity. Qed.
Lemma m6_add a b i : (i < 6)%nat -> qk (m6 (madd a b)) i = qk (m6 a) i + qk (m6 b) i.
Proof. intros Hi. do 6 (destruct i as [|i]; [reflexivity|]). lia. Qed.
Lemma m6_zero i : qk (m6 mzero) i = 0.
Proof. do 6 (destruct i as [|i]; [reflexivity|]). destruct i; reflexivity. Qed.
Lemma m6_scale k a i : (i < 6)%nat -> qk (m6 (mscale k a)) i = k * qk (m6 a) i.
Proof. intros Hi. do 6 (destruct i as [|i]; [reflexivity|]). lia. Qed.
Lemma m6_msum m f i : (i < 6)%nat -> qk (m6 (msum m f)) i = ksum m (fun j => qk (m6 (f j)) i).
Proof. intros Hi. induction m as [|m IH]; [apply m6_zero|]. change (qk (m6 (madd (msum m f) (f m))) i = ksum m (fun j => qk (m6 (f j)) i) + qk (m6 (f m)) i). rewrite m6_add, IH by auto. reflexivity. Qed.
Lemma atp_msum p m f : atp p (msum m f) = msum m (fun j => atp p (f j)).
Proof. induction m as [|m IH]; [apply atp_zero|]. change (atp p (madd (msum m f) (f m)) = madd (msum m (fun j => atp p (f j))) (atp p (f m))). rewrite atp_add, IH. reflexivity. Qed.
(** The Jacobian by rows. *)
Definition Jl (l : nat) : lmat := jac_rows (vec n (jacv ab l v3zero)).
Lemma Jl_row l i j : (i < 6)%nat -> (j < n)%nat -> ent (Jl l) i j = qk (m6 (jacv ab l v3zero j)) i.
Proof.
  intros Hi Hj. assert (E : forall g : motion -> K, nth j (map g (vec n (jacv ab l v3zero))) 0 = g (jacv ab l v3zero j)).
  { intros g. unfold vec. rewrite map_map. apply (nth_vec n (fun x => g (jacv ab l v3zero x))). auto. }
  unfold ent, Jl, jac_rows. do 6 (destruct i as [|i]; [apply E|]). lia.
Qed.
Lemma Jl_length l : List.length (Jl l) = 6%nat. Proof. reflexivity. Qed.
Lemma Jl_rows l i : (i < 6)%nat -> List.length (nth i (Jl l) nil) = n.
Proof. intros Hi. unfold Jl, jac_rows. do 6 (destruct i as [|i]; [cbn [nth]; rewrite map_length; apply vec_length|]). lia. Qed.

(** ** The motion *)
Section Mo.
Variable o : id_opts.
Hypothesis NG : o_grav o = false.
Hypothesis NF : o_fric o = false.
Variable p0 : nat -> force.
Variable a0 : nat -> motion.
Hypothesis A0 : forall i, (i < n)%nat -> a0 i = biasa ab o i.
Definition mg : nat -> motion * K := lastv ab o nil p0 a0 (fun _ => mzero).
Definition xs : list K := vec n (fun i => snd (mg i)).
Lemma mo_acc i : (i < n)%nat -> fst (mg i) = accv ab o xs i.
Proof.
  induction i as [i IH] using lt_wf_ind. intros Hi.
  rewrite (accv_acc ab T RR o mzero ltac:(congruence) ltac:(congruence)) by auto.
  destruct (lastv_law ab T p0 a0 (fun _ => mzero) nil o i Hi) as [E _].
  unfold mg at 1. rewrite E. f_equal.
  - unfold a1. destruct (par ab i) as [p|] eqn:Q; [|unfold rB; rewrite NG; reflexivity].
    pose proof (tree_par _ _ _ T Hi Q). rewrite A0 by auto. rewrite <- IH by lia. reflexivity.
  - f_equal. unfold xs. rewrite qk_vec by auto. reflexivity.
Qed.
Lemma mo_point l i : (l < n)%nat -> (i < 6)%nat ->
  qk (m6 (mact (Iso (rot (twv ab l)) v3zero) (fst (mg l)))) i =
  ksum n (fun j => ent (Jl l) i j * coef xs j) + (if o_cc o then qk (m6 (mact (Iso (rot (twv ab l)) v3zero) (ccv ab l))) i else 0).
Proof.
  intros Hl Hi. rewrite turn_acc, mo_acc by auto. rewrite (acc_world ab T RR) by auto. rewrite NG. fold n.
  rewrite !atp_add, !m6_add, atp_zero, m6_zero by auto. rewrite atp_msum, m6_msum by auto.
  assert (E : forall a b c, a = b -> a + (c + 0) = b + c) by (intros a b c ->; ring).
  rewrite (turn_acc (twv ab l) (ccv ab l)). destruct (o_cc o).
  - apply E. apply ksum_ext. intros j Hj. rewrite Jl_row, jac0 by auto. destruct (ancb ab j l).
    + rewrite atp_scale, m6_scale by auto. unfold coef, qk. ring.
    + rewrite atp_zero, m6_zero. ring.
  - rewrite atp_zero, m6_zero. apply E. apply ksum_ext. intros j Hj. rewrite Jl_row, jac0 by auto. destruct (ancb ab j l).
    + rewrite atp_scale, m6_scale by auto. unfold coef, qk. ring.
    + rewrite atp_zero, m6_zero. ring.
Qed.
End Mo.
(** Without velocity terms: A x + back p0 = 0. *)
Lemma mo_A p0 a0 i : (forall i, (i < n)%nat -> a0 i = biasa ab o0 i) -> (i < n)%nat -> row_times n A (xs o0 p0 a0) i = - back ab p0 i.
Proof.
  intros A0 Hi.
  assert (LAW : forall j, (j < n)%nat -> law ab p0 a0 (fun _ => mzero) nil o0 (fun j => fst (mg o0 p0 a0 j)) (fun j => snd (mg o0 p0 a0 j)) j)
    by (intros j Hj; apply (lastv_law ab T p0 a0 (fun _ => mzero) nil o0 j Hj)).
  assert (ACC : forall j, (j < n)%nat -> fst (mg o0 p0 a0 j) = madd (a1 ab a0 (fun _ => mzero) (fun j => fst (mg o0 p0 a0 j)) j) (mscale (snd (mg o0 p0 a0 j)) (sub_at ab j)))
    by (intros j Hj; apply (lastv_law ab T p0 a0 (fun _ => mzero) nil o0 j Hj)).
  pose proof (laws_held ab T RR (proper_sym _ P) AR p0 a0 (fun _ => mzero) nil o0 eq_refl _ _ ACC
    (fun j => fadd (imul (inertia_at ab j) (fst (mg o0 p0 a0 j))) (p0 j)) ltac:(auto) LAW i Hi) as H.
  rewrite (back_add ab T RR) in H by auto. rewrite qk_nil in H.
  assert (E : back ab (fun j => imul (inertia_at ab j) (fst (mg o0 p0 a0 j))) i = row_times n A (xs o0 p0 a0) i).
  { transitivity (back ab (idf0 ab o0 (xs o0 p0 a0) (fun _ => None)) i).
    - apply (back_ext ab T RR); auto. intros j Hj. rewrite (idf0_acc ab T (fun _ => None) o0) by auto. rewrite (mo_acc o0 eq_refl eq_refl p0 a0 A0) by auto.
      change (biasf ab o0 (fun _ => None) j) with (biasf ab (IdOpts false false false 0) (fun _ => None) j). replace (biasf ab (IdOpts false false false 0) (fun _ => None) j) with (@fzero S) by (symmetry; exact (proj1 (bias0 ab T j Hj))). symmetry. apply fadd_zero_r.
    - rewrite (id_decomp ab T RR (proper_mass _ P) (proper_sym _ P)) by auto. rewrite id_base_sum by auto. cbn [o0 o_cc o_grav].
      rewrite (ext_none ab T P) by auto. unfold A, n. ring. }
  rewrite E in H. transitivity (row_times n A (xs o0 p0 a0) i + back ab p0 i - back ab p0 i); [ring|]. rewrite H. ring.
Qed.

(** ** Without velocity terms *)
Hypothesis SO : solver_ok solve n A.
Lemma sol_unique x y : (forall i, (i < n)%nat -> row_times n A x i = row_times n A y i) -> forall i, (i < n)%nat -> coef x i = coef y i.
Proof.
  intros H i Hi. pose proof (A_injective ab T P AR (vec n (fun k => coef x k - coef y k)) (vec_length _ _)) as X. fold n in X.
  assert (Z : forall k, (k < n)%nat -> row_times n A (vec n (fun k => coef x k - coef y k)) k = 0).
  { intros k Hk. transitivity (row_times n A x k - row_times n A y k); [|rewrite H by auto; ring]. unfold row_times. rewrite !total_ksum.
    transitivity (ksum n (fun j => entry A k j * coef x j) + - ksum n (fun j => entry A k j * coef y j)); [|ring].
    rewrite <- ksum_opp, <- ksum_add. apply ksum_ext. intros j Hj. rewrite coef_vec by auto. ring. }
  specialize (X Z i Hi). rewrite coef_vec in X by auto. transitivity (coef x i - coef y i + coef y i); [ring|]. rewrite X. ring.
Qed.
Lemma row_sub x y k : row_times n A (vec n (fun k => coef x k - coef y k)) k = row_times n A x k - row_times n A y k.
Proof.
  unfold row_times. rewrite !total_ksum.
  transitivity (ksum n (fun j => entry A k j * coef x j) + - ksum n (fun j => entry A k j * coef y j)); [|ring].
  rewrite <- ksum_opp, <- ksum_add. apply ksum_ext. intros j Hj. rewrite coef_vec by auto. ring.
Qed.
Lemma row_neg x k : - row_times n A x k = row_times n A (vec n (fun k => - coef x k)) k.
Proof. unfold row_times. rewrite !total_ksum, <- ksum_opp. apply ksum_ext. intros j Hj. rewrite coef_vec by auto. ring. Qed.
(** The pushed link pushes the joints by the columns of its Jacobian. *)
Lemma push_mdot X s f : rigid X -> mdot s (fact X (fact (Iso (m3tr (rot X)) v3zero) f)) = mdot (atp (tra X) s) f.
Proof.
  intros R. destruct X as [M t], f as [a b], s as [u w]. unfold fact, mdot, atp. cbn [rot tra flin fang mlin mang].
  replace (v3sub (m3mulv (m3tr M) b) (v3cross (m3mulv (m3tr M) a) v3zero)) with (m3mulv (m3tr M) b) by (generalize (m3mulv (m3tr M) b) (m3mulv (m3tr M) a); intros; vring).
  rewrite !(rot_mulv_tr M) by exact R. generalize t. clear t R. intros t. vring.
Qed.
Lemma unit_dot s k : (k < 6)%nat -> mdot s (fopp (unit_force k)) = - qk (m6 s) k.
Proof. intros Hk. destruct s as [[a b c] [x y z]]. do 6 (destruct k as [|k]; [unfold unit_force, fopp, v3opp, mdot, v3dot, m6, qk; cbn [Nat.eqb flin fang mlin mang vx vy vz nth]; ring|]). lia. Qed.
Lemma push_back l k i : (l < n)%nat -> (k < 6)%nat -> (i < n)%nat -> back ab (push ab l k) i = - ent (Jl l) k i.
Proof.
  intros Hl Hk Hi. rewrite (back_world ab T RR) by auto. fold n. rewrite Jl_row, jac0 by auto.
  rewrite (ksum_ext n _ (fun m => if Nat.eqb m l then (if ancb ab i m then mdot (Sw ab i) (fact (twv ab m) (push ab l k m)) else 0) else 0)).
  - rewrite ksum_single by auto. unfold push. rewrite Nat.eqb_refl. destruct (ancb ab i l).
    + rewrite push_mdot by (apply (tw_rigid ab T RR); auto). apply unit_dot; auto.
    + rewrite m6_zero. ring.
  - intros m Hm. unfold push. destruct (Nat.eqb m l); [reflexivity|]. rewrite fact_zero, mdot_zero_r. destruct (ancb ab i m); reflexivity.
Qed.
Lemma row_len l k : (k < 6)%nat -> List.length (nth k (Jl l) nil) = n.
Proof. apply Jl_rows. Qed.
Lemma push_sol l k j : (l < n)%nat -> (k < 6)%nat -> (j < n)%nat -> coef (xs o0 (push ab l k) (biasa ab o0)) j = coef (solve A (nth k (Jl l) nil)) j.
Proof.
  intros Hl Hk Hj. apply sol_unique; auto. intros i Hi. rewrite mo_A by auto. rewrite push_back by auto.
  rewrite (proj2 (SO _ (row_len l k Hk))) by auto. unfold ent, coef. ring.
Qed.
Lemma xv_ent l j k : (j < n)%nat -> (k < 6)%nat -> ent (OpsCache.xv solve ab (Jl l)) j k = coef (solve A (nth k (Jl l) nil)) j.
Proof.
  intros Hj Hk. unfold OpsCache.xv, ltr. rewrite Jl_length. fold n. rewrite ent_mat by auto. unfold ent, coef. f_equal.
  rewrite (nth_indep _ nil (solve A nil)) by (rewrite map_length, Jl_length; auto). rewrite map_nth. reflexivity.
Qed.
(** The inverse task inertia is J A^-1 J^T. *)
Lemma linv_eq l : (l < n)%nat -> linv_aba ab l = linvv solve ab (Jl l).
Proof.
  intros Hl. unfold linv_aba, linvv, lmul. rewrite Jl_length. fold n. apply mat_ext. intros i k Hi Hk.
  change (mo ab o0 (push ab l k) l) with (mg o0 (push ab l k) (biasa ab o0) l).
  rewrite (mo_point o0 eq_refl eq_refl (push ab l k) (biasa ab o0) ltac:(auto)) by auto. cbn [o0 o_cc].
  transitivity (ksum n (fun j => ent (Jl l) i j * ent (OpsCache.xv solve ab (Jl l)) j k) + 0); [|ring]. f_equal.
  apply ksum_ext. intros j Hj. rewrite push_sol, xv_ent by auto. reflexivity.
Qed.

(** ** Projected joint torques *)
Lemma dual b c : List.length b = n -> List.length c = n ->
  ksum n (fun j => coef (solve A b) j * coef c j) = ksum n (fun j => coef b j * coef (solve A c) j).
Proof.
  intros Hb Hc. destruct (SO b Hb) as [_ X], (SO c Hc) as [_ Y].
  transitivity (ksum n (fun j => ksum n (fun m => coef (solve A b) j * (Av ab j m * coef (solve A c) m)))).
  - apply ksum_ext. intros j Hj. rewrite <- (Y j Hj) at 1. unfold row_times. rewrite total_ksum, <- ksum_scale. apply ksum_ext. intros m Hm.
    unfold A. rewrite entry_mat by auto. reflexivity.
  - rewrite ksum_swap. apply ksum_ext. intros m Hm. rewrite <- (X m Hm) at 1. unfold row_times. rewrite total_ksum, <- ksum_scale_r. apply ksum_ext. intros j Hj.
    unfold A. rewrite entry_mat by auto. rewrite (Av_sym ab T P j m) by auto. ring.
Qed.
Lemma jbt_val l e x i : (l < n)%nat -> List.length x = n -> (i < 6)%nat ->
  qk (jbt solve pinv ab (Jl l) e x) i = ksum 6 (fun k => ent (lamv solve pinv ab (Jl l) e) k i * ksum n (fun j => ent (Jl l) k j * coef (solve A x) j)).
Proof.
  intros Hl Hx Hi. unfold jbt. rewrite Jl_length. fold n. rewrite lmulv_coef by auto.
  transitivity (ksum n (fun j => ksum 6 (fun k => ent (OpsCache.xv solve ab (Jl l)) j k * ent (lamv solve pinv ab (Jl l) e) k i * qk x j))).
  - apply ksum_ext. intros j Hj. unfold ltr. rewrite ent_mat by auto. unfold jbv, lmul. rewrite Jl_length. fold n. rewrite ent_mat by auto.
    rewrite <- ksum_scale_r. reflexivity.
  - rewrite ksum_swap. apply ksum_ext. intros k Hk. change (ksum n (fun j => ent (Jl l) k j * coef (solve A x) j)) with (ksum n (fun j => coef (nth k (Jl l) nil) j * coef (solve A x) j)). rewrite <- (dual (nth k (Jl l) nil) x) by (auto using row_len). rewrite <- ksum_scale. apply ksum_ext. intros j Hj.
    rewrite xv_ent by auto. unfold qk, coef. ring.
Qed.

(** ** Coriolis *)
Lemma cc_sol j : (j < n)%nat -> coef (xs oc (biasf ab oc (fun _ => None)) (biasa ab oc)) j = - coef (solve A (vec n (Cv ab))) j.
Proof.
  intros Hj. set (x := xs oc _ _).
  assert (E : forall i, (i < n)%nat -> id_base ab oc x (fun _ => None) i = qk nil i).
  { pose proof (solves_iff ab T P AR (fun _ => None) oc eq_refl mzero ltac:(discriminate) nil x) as [X _]. fold n in X. apply X.
    intros i Hi. unfold x, xs. rewrite qk_vec by auto. unfold mg.
    assert (R : forall r, (forall i, r i = @mzero S) -> lastv ab oc nil (biasf ab oc (fun _ => None)) (biasa ab oc) (fun _ => mzero) i = lastv ab oc nil (biasf ab oc (fun _ => None)) (biasa ab oc) r i).
    { intros r Hr. clear - Hr Hi T. revert Hi. induction i as [i IH] using lt_wf_ind. intros Hi. unfold lastv. rewrite !tval_eq by auto.
      destruct (par ab i) as [p|] eqn:Q; [|rewrite Hr; reflexivity]. pose proof (tree_par _ _ _ T Hi Q). fold (lastv ab oc nil (biasf ab oc (fun _ => None)) (biasa ab oc) r). 
      fold (lastv ab oc nil (biasf ab oc (fun _ => None)) (biasa ab oc) (fun _ => mzero)). rewrite IH by lia. reflexivity. }
    rewrite (R (rB ab oc mzero)); [reflexivity|]. intros k. reflexivity. }
  assert (X : forall i, (i < n)%nat -> row_times n A x i = - Cv ab i).
  { intros i Hi. specialize (E i Hi). rewrite id_base_sum in E by auto. cbn [oc o_cc o_grav] in E. rewrite qk_nil, (ext_none ab T P) in E by auto. fold n in E. fold A in E.
    match type of E with ?a = _ => transitivity (a - Cv ab i); [ring|rewrite E; ring] end. }
  rewrite (sol_unique x (vec n (fun k => - coef (solve A (vec n (Cv ab))) k))); auto; [rewrite coef_vec by auto; reflexivity|].
  intros i Hi. rewrite X by auto. rewrite <- (coef_vec n (Cv ab) i) by auto. rewrite <- (proj2 (SO (vec n (Cv ab)) (vec_length _ _)) i Hi). apply row_neg.
Qed.
Lemma cc_point l i : (l < n)%nat -> (i < 6)%nat -> qk (map kopp (m6 (cc_acc ab l))) i =
  ksum n (fun j => ent (Jl l) i j * coef (solve A (vec n (Cv ab))) j) - qk (m6 (mact (Iso (rot (twv ab l)) v3zero) (ccv ab l))) i.
Proof.
  intros Hl Hi. assert (E : qk (map kopp (m6 (cc_acc ab l))) i = - qk (m6 (cc_acc ab l)) i) by (do 6 (destruct i as [|i]; [reflexivity|]); lia).
  rewrite E. unfold cc_acc. change (mo ab oc (biasf ab oc (fun _ => None)) l) with (mg oc (biasf ab oc (fun _ => None)) (biasa ab oc) l).
  rewrite (mo_point oc eq_refl eq_refl _ _ ltac:(auto)) by auto. cbn [oc o_cc].
  rewrite (ksum_ext n _ (fun j => - (ent (Jl l) i j * coef (solve A (vec n (Cv ab))) j))); [rewrite ksum_opp; ring|].
  intros j Hj. rewrite cc_sol by auto. ring.
Qed.
Definition even6 (M : lmat) : Prop := forall i k, (i < 6)%nat -> (k < 6)%nat -> ent M i k = ent M k i.
Lemma cc_eq l e : (l < n)%nat -> even6 (lamv solve pinv ab (Jl l) e) ->
  (forall i k, (i < 6)%nat -> (k < 6)%nat -> ent (lamv solve pinv ab (Jl l) e) i k = ent (lamv solve pinv ab (Jl l) 0) i k) ->
  lmulv 6 6 (lamv solve pinv ab (Jl l) e) (map kopp (m6 (cc_acc ab l))) = occv solve pinv ab (Jl l) l e.
Proof.
  intros Hl Y E. unfold occv, lmulv at 1. fold n. apply vec_ext. intros i Hi. rewrite jbt_val, lmulv_coef by (auto using vec_length).
  transitivity (ksum 6 (fun k => ent (lamv solve pinv ab (Jl l) e) k i * ksum n (fun j => ent (Jl l) k j * coef (solve A (vec n (Cv ab))) j)) +
    - ksum 6 (fun k => ent (lamv solve pinv ab (Jl l) 0) i k * qk (m6 (mact (Iso (rot (twv ab l)) v3zero) (ccv ab l))) k)); [|ring].
  rewrite <- ksum_opp, <- ksum_add. apply ksum_ext. intros k Hk. rewrite cc_point, (Y i k) by auto. rewrite <- (E i k), (Y i k) by auto. fold n. ring.
Qed.

(** ** Gravity *)
Lemma grav_back fe i : (i < n)%nat -> back ab (gravp ab fe) i = Extv ab fe i - Gv ab i.
Proof.
  intros Hi. transitivity (back ab (fun k => fadd (gravp ab fe k) (grav_f0 ab (twv ab) k)) i - Gv ab i).
  - rewrite (back_add ab T RR) by auto. unfold Gv. ring.
  - f_equal. apply (back_ext ab T RR); auto. intros k Hk. unfold gravp, grav_f0, ext_f0.
    rewrite i6_of_mul by (apply (proper_sym _ P); auto). rewrite mact_opp, imul_opp. generalize (imul (inertia_at ab k) (mact (iso_inv (twv ab k)) (ab_g ab))). intros f.
    destruct (fe k) as [x|]; [rewrite fact_opp; generalize (fact (iso_inv (twv ab k)) x); intros y; destruct f, y; vring|destruct f; vring].
Qed.
Lemma grav_point fe l i : (l < n)%nat -> (i < 6)%nat -> qk (m6 (grav_acc ab fe l)) i =
  ksum n (fun j => ent (Jl l) i j * (coef (solve A (vec n (Gv ab))) j - coef (solve A (vec n (Extv ab fe))) j)).
Proof.
  intros Hl Hi. unfold grav_acc.
  change (lastv ab oc nil (gravp ab fe) (fun _ => mzero) (fun _ => mzero) l) with (mg o0 (gravp ab fe) (fun _ => mzero) l).
  assert (A0 : forall i, (i < n)%nat -> @mzero S = biasa ab o0 i) by (intros k Hk; symmetry; exact (proj2 (bias0 ab T k Hk))).
  rewrite (mo_point o0 eq_refl eq_refl _ _ A0) by auto. cbn [o0 o_cc].
  transitivity (ksum n (fun j => ent (Jl l) i j * coef (xs o0 (gravp ab fe) (fun _ => mzero)) j)); [ring|].
  apply ksum_ext. intros j Hj. f_equal.
  rewrite (sol_unique _ (vec n (fun k => coef (solve A (vec n (Gv ab))) k - coef (solve A (vec n (Extv ab fe))) k))); auto; [rewrite coef_vec by auto; reflexivity|].
  intros k Hk. rewrite mo_A, grav_back by auto. rewrite row_sub.
  rewrite (proj2 (SO (vec n (Gv ab)) (vec_length _ _)) k Hk), (proj2 (SO (vec n (Extv ab fe)) (vec_length _ _)) k Hk), !coef_vec by auto. ring.
Qed.
Lemma grav_eq fe l e i : (l < n)%nat -> (i < 6)%nat -> even6 (lamv solve pinv ab (Jl l) e) ->
  qk (lmulv 6 6 (lamv solve pinv ab (Jl l) e) (m6 (grav_acc ab fe l))) i =
  qk (jbt solve pinv ab (Jl l) e (vec n (Gv ab))) i - qk (jbt solve pinv ab (Jl l) e (vec n (Extv ab fe))) i.
Proof.
  intros Hl Hi Y. rewrite lmulv_coef, !jbt_val by (auto using vec_length).
  match goal with |- _ = ?a - ?b => transitivity (a + - b); [|ring] end. rewrite <- ksum_opp, <- ksum_add. apply ksum_ext. intros k Hk.
  rewrite grav_point, (Y i k) by auto.
  match goal with |- ?c * _ = ?c * ?a + - (?c * ?b) => transitivity (c * (a + - b)); [|ring] end. f_equal.
  rewrite <- ksum_opp, <- ksum_add. apply ksum_ext. intros j Hj. ring.
Qed.
End OaLaws.
