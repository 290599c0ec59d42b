(** Articulated-body results at the level of API calls (C18-C22, C45). *)
From Coq Require Import List Arith ZArith Bool Lia Ring Field.
From Verif Require Import Scalar Base Spatial SpecGeo Joint Body Kin InvDyn FwdDyn Opspace OpspaceAba Deriv Sim Ops Specs SpecCache SpecKin SpecDyn SpecAba SpatialTac SpatialProofs TreeProofs CacheProofs CacheOps JointProofs BigSum KinProofs WorldProofs DynProofs AbaProofs AinvProofs AbaOps AbaLaws LoadProofs DynApi AbaCache.
Import ListNotations.

Section AbaApi.
Context {S : Scal} {L : ScalLaws S} {PL : PosLaws S}.
Add Field kf : (@kfield S L).
Variable solve : list (list K) -> list K -> list K.
Variable pinv : list (list K) -> K -> list (list K) * bool.
Local Open Scope k_scope.

Section Robot.
Variable ab : body.
Hypothesis T : tree_ok ab.
Hypothesis W : wfc ab.
Hypothesis P : proper ab.
Hypothesis AR : articulable ab.
Variables (fe : fmap) (o : id_opts).
Hypothesis NF : o_fric o = false.
Variable gB : motion.
Hypothesis GB : o_grav o = true -> mact (iso_inv (ab_Tbase ab)) (ab_g ab) = gB.
Let n := ab_dof ab.
Let RR := pr_rigid _ P.
Let sol (tau : list K) : list K := vec n (fun i => snd (lastv ab o tau (biasf ab o fe) (biasa ab o) (rB ab o gB) i)).
Lemma solves_iff tau ddq : (forall i, (i < n)%nat -> qk ddq i = snd (lastv ab o tau (biasf ab o fe) (biasa ab o) (rB ab o gB) i)) <->
  (forall i, (i < n)%nat -> id_base ab o ddq fe i = qk tau i).
Proof.
  pose proof (aba_solves ab T RR (proper_sym _ P) AR fe o NF gB GB (fun _ => proj1 RR) tau ddq) as [X Y].
  split; intros H.
  - intros i Hi. rewrite <- (id_decomp ab T RR (proper_mass _ P) (proper_sym _ P)) by auto. apply X; auto.
  - apply Y. intros i Hi. rewrite (id_decomp ab T RR (proper_mass _ P) (proper_sym _ P)) by auto. auto.
Qed.
Lemma out_ID_plain ddq : List.length ddq = n -> outcome (ask solve pinv (QID ddq fe o) ab) = Ok (AVec (vec n (id_base ab o ddq fe))).
Proof.
  intros Hl. cbn [ask]. rewrite outcome_wrap, (out_ID ab T W) by auto. fold n. rewrite Hl, Nat.eqb_refl. unfold plus_friction. rewrite NF. reflexivity.
Qed.
Lemma id_of_sol tau : List.length tau = n -> outcome (ask solve pinv (QID (sol tau) fe o) ab) = Ok (AVec tau).
Proof.
  intros Hl. rewrite out_ID_plain by apply vec_length. do 2 f_equal. apply (list_coef_ext n); auto; [apply vec_length|].
  intros i Hi. rewrite coef_vec by auto. change (coef tau i) with (qk tau i). revert i Hi. apply solves_iff. intros i Hi. unfold sol. rewrite qk_vec by auto. reflexivity.
Qed.
Lemma sol_of_id ddq : List.length ddq = n -> sol (vec n (id_base ab o ddq fe)) = ddq.
Proof.
  intros Hl. apply (list_coef_ext n); auto; [apply vec_length|]. intros i Hi. unfold sol. rewrite coef_vec by auto. symmetry.
  change (coef ddq i) with (qk ddq i). revert i Hi. apply solves_iff. intros i Hi. rewrite qk_vec by auto. auto.
Qed.
End Robot.

(** Without bias: the inertia matrix. *)
Section Mass.
Variable ab : body.
Hypothesis T : tree_ok ab.
Hypothesis P : proper ab.
Hypothesis AR : articulable ab.
Let n := ab_dof ab.
Let o0 := IdOpts false false false 0.
Let sol (tau : list K) (i : nat) : K := snd (lastv ab o0 tau (biasf ab o0 (fun _ => None)) (biasa ab o0) (rB ab o0 mzero) i).
Lemma ext_none i : (i < n)%nat -> Extv ab (fun _ => None) i = 0.
Proof.
  intros Hi. unfold Extv. rewrite <- (back_zero ab T (pr_rigid _ P) i Hi). apply back_ext; auto. apply P.
Qed.
Lemma A_sol tau ddq : (forall i, (i < n)%nat -> qk ddq i = sol tau i) <->
  (forall i, (i < n)%nat -> row_times n (mat n n (Av ab)) ddq i = qk tau i).
Proof.
  pose proof (solves_iff ab T P AR (fun _ => None) o0 eq_refl mzero ltac:(discriminate) tau ddq) as [X Y]. unfold sol. split; intros H.
  - intros i Hi. rewrite <- X by auto. unfold n. rewrite id_base_sum by auto. cbn. rewrite ext_none by auto. ring.
  - apply Y. intros i Hi. rewrite id_base_sum by auto. cbn. fold n. rewrite H by auto. rewrite ext_none by auto. ring.
Qed.
Lemma A_injective : injective n (mat n n (Av ab)).
Proof.
  intros x Hl Hx i Hi.
  assert (E : forall ddq, (forall i, (i < n)%nat -> row_times n (mat n n (Av ab)) ddq i = qk (vec n (fun _ => 0)) i) -> qk ddq i = sol (vec n (fun _ => 0)) i).
  { intros ddq H. apply (proj2 (A_sol _ _) H); auto. }
  change (coef x i) with (qk x i). rewrite (E x) by (intros; rewrite Hx, qk_vec by auto; auto).
  rewrite <- (E (vec n (fun _ => 0))); [rewrite qk_vec by auto; auto|]. intros k Hk. rewrite qk_vec by auto. unfold row_times. rewrite total_ksum.
  apply ksum_zero. intros j Hj. rewrite coef_vec by auto. ring.
Qed.

(** Columns of the inverse. *)
Let unit_vec (j : nat) : list K := vec n (fun i => if Nat.eqb i j then 1 else 0).
Lemma qk_unit i j : (i < n)%nat -> qk (unit_vec j) i = if Nat.eqb i j then 1 else 0.
Proof. intros Hi. unfold unit_vec. rewrite qk_vec by auto. auto. Qed.
Lemma bias0 i : (i < n)%nat -> biasf ab o0 (fun _ => None) i = fzero /\ biasa ab o0 i = mzero.
Proof.
  intros Hi. unfold biasf, biasa. rewrite (vv_nocc ab T) by auto. rewrite fcross_zero_l, mcross_zero_l. destruct (par ab i); auto.
Qed.
Lemma pv_unit j i : (j < n)%nat -> (i < n)%nat ->
  Pv ab j i = pv ab o0 (unit_vec j) (biasf ab o0 (fun _ => None)) (biasa ab o0) i /\
  (ancb ab i j = false -> Pv ab j i = fzero).
Proof.
  intros Hj. revert i. apply (leaves_ind ab). intros i Hi IH.
  assert (E1 : Pv ab j i = fold_right (fun c a => Pg ab j c (Pv ab j c) a) fzero (children ab i)) by (unfold Pv at 1; rewrite sval_eq by auto; reflexivity).
  assert (E2 : pv ab o0 (unit_vec j) (biasf ab o0 (fun _ => None)) (biasa ab o0) i =
    fold_right (fun c a => pg ab o0 (unit_vec j) (biasa ab o0) c (pv ab o0 (unit_vec j) (biasf ab o0 (fun _ => None)) (biasa ab o0) c) a) (biasf ab o0 (fun _ => None) i) (children ab i))
    by (unfold pv at 1; rewrite sval_eq by auto; reflexivity).
  rewrite E1, E2. destruct (bias0 i Hi) as [-> _].
  assert (G : forall l, (forall c, In c l -> In c (children ab i)) ->
    fold_right (fun c a => Pg ab j c (Pv ab j c) a) fzero l =
    fold_right (fun c a => pg ab o0 (unit_vec j) (biasa ab o0) c (pv ab o0 (unit_vec j) (biasf ab o0 (fun _ => None)) (biasa ab o0) c) a) fzero l /\
    (ancb ab i j = false -> fold_right (fun c a => Pg ab j c (Pv ab j c) a) fzero l = fzero)).
  { induction l as [|c l IHl]; cbn [fold_right]; intros Hl; [auto|].
    destruct IHl as [IHl IHz]; [intros; apply Hl; right; auto|].
    destruct (child_lt ab T i c Hi) as [Hc Hp]; [apply Hl; left; auto|]. destruct (IH c Hc) as [Ec Ez].
    assert (AC : ancb ab i j = false -> ancb ab c j = false).
    { intros N. destruct (ancb ab c j) eqn:A; auto. rewrite <- N. symmetry. apply (ancb_trans ab T i c j); auto; try lia.
      rewrite (ancb_step ab T), Hp by lia. rewrite (ancb_self ab T) by auto. apply orb_true_r. }
    split.
    - rewrite <- IHl. unfold Pg at 1, pg. destruct (bias0 c) as [_ ->]; [lia|]. rewrite i6mul_zero, fadd_zero_r, <- Ec. unfold aba_tau. cbn [o0 o_fric].
      rewrite qk_unit by lia. destruct (ancb ab c j) eqn:A; auto.
      rewrite Ez by auto. rewrite mdot_zero_r. destruct (Nat.eqb_spec c j) as [->|N]; [rewrite (ancb_self ab T) in A by auto; discriminate|].
      pose proof (dv_neq ab AR c) as D. assert (Z0 : (0 - 0) / dv ab c = 0) by (field; apply D; lia). rewrite Z0, fscale_zero_l, fadd_zero_l, fact_zero, fadd_zero_r. auto.
    - intros N. unfold Pg at 1. rewrite AC by auto. auto. }
  apply G; auto.
Qed.
Lemma ainvv_sol i j : (i < n)%nat -> (j < n)%nat -> ainvv ab i j = sol (unit_vec j) i.
Proof.
  intros Hi Hj. unfold ainvv, sol. f_equal. revert i Hi. induction i as [i IH] using lt_wf_ind. intros Hi.
  unfold ilastv, lastv. rewrite !tval_eq by auto. fold (ilastv ab j). fold (lastv ab o0 (unit_vec j) (biasf ab o0 (fun _ => None)) (biasa ab o0) (rB ab o0 mzero)).
  assert (X : forall a, ilast ab j i a = lastp ab o0 (unit_vec j) (biasf ab o0 (fun _ => None)) (biasa ab o0) i a).
  { intros a. unfold ilast, lastp, Xb, xv, aba_tau. cbn [o0 o_fric]. destruct (pv_unit j i Hj Hi) as [<- _]. rewrite qk_unit by auto. reflexivity. }
  destruct (par ab i) as [p|] eqn:Q.
  - rewrite IH by (try apply (tree_par _ _ _ T Hi Q); pose proof (tree_par _ _ _ T Hi Q); lia). destruct (bias0 i Hi) as [_ ->]. apply X.
  - apply X.
Qed.
Lemma A_ainvv k j : (k < n)%nat -> (j < n)%nat -> ksum n (fun i => Av ab k i * ainvv ab i j) = if Nat.eqb k j then 1 else 0.
Proof.
  intros Hk Hj. rewrite <- (qk_unit k j) by auto.
  rewrite <- (proj1 (A_sol (unit_vec j) (vec n (sol (unit_vec j)))) ltac:(intros; apply qk_vec; auto) k Hk).
  unfold row_times. rewrite total_ksum. apply ksum_ext. intros i Hi. rewrite entry_mat, coef_vec by auto. rewrite ainvv_sol by auto. auto.
Qed.
Lemma Av_sym k j : (k < n)%nat -> (j < n)%nat -> Av ab k j = Av ab j k.
Proof.
  intros Hk Hj. rewrite !(A_world ab T (pr_rigid _ P) (proper_mass _ P) (proper_sym _ P)) by auto. apply ksum_ext. intros i Hi.
  rewrite andb_comm. destruct (ancb ab j i && ancb ab k i); auto. apply imul_sym. apply isym_act, (proper_sym _ P). auto.
Qed.
Lemma ainvv_sym i j : (i < n)%nat -> (j < n)%nat -> ainvv ab i j = ainvv ab j i.
Proof.
  intros Hi Hj.
  transitivity (ksum n (fun k => ksum n (fun m => ainvv ab m i * Av ab k m * ainvv ab k j))).
  - rewrite <- (ksum_single n i (fun k => ainvv ab k j)) by auto. apply ksum_ext. intros k Hk.
    transitivity (ksum n (fun m => Av ab k m * ainvv ab m i) * ainvv ab k j).
    + rewrite A_ainvv by auto. destruct (Nat.eqb k i); ring.
    + rewrite (ksum_ext n (fun m => ainvv ab m i * Av ab k m * ainvv ab k j) (fun m => ainvv ab k j * (Av ab k m * ainvv ab m i))) by (intros; ring).
      rewrite ksum_scale. ring.
  - rewrite ksum_swap. rewrite <- (ksum_single n j (fun m => ainvv ab m i)) by auto. apply ksum_ext. intros m Hm.
    rewrite (ksum_ext n (fun k => ainvv ab m i * Av ab k m * ainvv ab k j) (fun k => ainvv ab m i * (Av ab m k * ainvv ab k j)))
      by (intros k Hk; rewrite (Av_sym k m) by auto; ring).
    rewrite ksum_scale, A_ainvv by auto. destruct (Nat.eqb m j); ring.
Qed.
End Mass.

(** ** C18 *)
Lemma base_plain ab : rot (ab_Tbase ab) = m3id -> mang (ab_g ab) = v3zero -> mact (iso_inv (ab_Tbase ab)) (ab_g ab) = ab_g ab.
Proof.
  destruct (ab_Tbase ab) as [R t], (ab_g ab) as [gl ga]. cbn [rot mang]. intros -> ->. unfold mact, iso_inv. cbn [rot tra mlin mang]. generalize gl t. vring.
Qed.
Lemma base_turned Tb gl : rigid Tb -> mact (iso_inv Tb) (Mot (m3mulv (rot Tb) gl) v3zero) = Mot gl v3zero.
Proof.
  intros RT. destruct Tb as [Rm t]. unfold mact, iso_inv. cbn [rot tra mlin mang].
  assert (E : m3mulv (m3tr Rm) (m3mulv Rm gl) = gl) by (rewrite <- m3mulv_mul, (rot_tr_l Rm RT); apply m3mulv_id).
  rewrite E. generalize (m3tr Rm) (v3opp (m3mulv (m3tr Rm) t)) gl. vring.
Qed.
Lemma abav_lastv ab tau fe o i : abav ab tau fe o i = lastv ab o tau (biasf ab o fe) (biasa ab o) (rB ab o (ab_g ab)) i.
Proof. reflexivity. Qed.
Lemma aba_inverts_of ab ab' fe o : tree_ok ab -> wfa ab -> tree_ok ab' -> wfc ab' -> proper ab' -> articulable ab' -> o_fric o = false ->
  (o_grav o = true -> mact (iso_inv (ab_Tbase ab')) (ab_g ab') = ab_g ab) -> ab_dof ab' = ab_dof ab ->
  (forall tau i, abav ab tau fe o i = lastv ab' o tau (biasf ab' o fe) (biasa ab' o) (rB ab' o (ab_g ab)) i) ->
  aba_inverts solve pinv fe o ab ab'.
Proof.
  intros T W T' W' P AR NF GB D E.
  assert (X : forall tau, vec (ab_dof ab) (fun i => snd (abav ab tau fe o i)) = vec (ab_dof ab') (fun i => snd (lastv ab' o tau (biasf ab' o fe) (biasa ab' o) (rB ab' o (ab_g ab)) i))).
  { intros tau. rewrite D. apply vec_ext. intros i Hi. rewrite E. auto. }
  split.
  - intros tau Hl. eexists. split; [apply (out_aba solve pinv ab tau fe o T W Hl)|]. rewrite X.
    apply (id_of_sol ab' T' W' P AR fe o NF (ab_g ab) GB tau). congruence.
  - intros ddq Hl. rewrite <- D in Hl. eexists. split; [apply (out_ID_plain ab' T' W' P fe o NF ddq Hl)|].
    rewrite out_aba; auto; [|rewrite vec_length; auto]. rewrite X. do 2 f_equal.
    apply (sol_of_id ab' T' P AR fe o NF (ab_g ab) GB ddq Hl).
Qed.
Lemma c18 h ab fe o : reached solve pinv h ab -> base_fixed false h = true -> unmixed h = true ->
  proper ab -> articulable ab -> o_fric o = false -> (o_grav o = true -> rot (ab_Tbase ab) = m3id) ->
  aba_inverts solve pinv fe o ab ab.
Proof.
  intros R B U P AR NF HB. assert (AC : AddComm S) by apply laws_comm. destruct (reached_wfa solve pinv h ab R B U) as [T W].
  apply aba_inverts_of; auto; [apply wfa_wfc; auto|]. intros G. apply base_plain; auto. eapply reached_g; eauto.
Qed.
Lemma c18_fd h ab fe o tau : reached solve pinv h ab -> base_fixed false h = true -> unmixed h = true ->
  proper ab -> articulable ab -> o_fric o = false -> (o_grav o = true -> rot (ab_Tbase ab) = m3id) ->
  exists A, outcome (ask solve pinv QInertia ab) = Ok (AMat A) /\ injective (ab_dof ab) A /\
    (solver_ok solve (ab_dof ab) A -> outcome (ask solve pinv (QAba tau fe o) ab) = outcome (ask solve pinv (QFD tau fe o) ab)).
Proof.
  intros R B U P AR NF HB. pose proof (c18 h ab fe o R B U P AR NF HB) as [C1 C2].
  destruct (c17 solve pinv h ab fe o R B P NF) as (A & HA & H). exists A. split; auto.
  assert (AC : AddComm S) by apply laws_comm. destruct (reached_wfa solve pinv h ab R B U) as [T W].
  assert (IA : injective (ab_dof ab) A).
  { cbn [ask] in HA. rewrite outcome_wrap, (out_Inertia ab T (wfa_wfc _ W)) in HA. cbn [bind] in HA. inversion HA. apply A_injective; auto. }
  split; auto. intros SO. destruct (H SO) as [H1 H2]. specialize (H2 IA).
  destruct (Nat.eq_dec (List.length tau) (ab_dof ab)) as [Hl|Hl].
  - destruct (C1 tau Hl) as (ddq & E1 & E2). rewrite E1.
    assert (Hd : List.length ddq = ab_dof ab) by (rewrite (out_aba solve pinv ab tau fe o T W Hl) in E1; inversion E1; apply vec_length).
    destruct (H2 ddq Hd) as (tau' & E3 & E4). rewrite E2 in E3. inversion E3; subst. auto.
  - apply Nat.eqb_neq in Hl. cbn [ask]. unfold q_ForwardDynamicsAba, q_ForwardDynamics. rewrite Hl. reflexivity.
Qed.
(** C21: gravity is taken in the base frame. *)
Lemma c21 h ab fe o : reached solve pinv h ab -> base_fixed false h = true -> unmixed h = true ->
  proper ab -> articulable ab -> o_fric o = false ->
  exists ab', set_g (m3mulv (rot (ab_Tbase ab)) (mlin (ab_g ab))) ab = Ret ab' tt /\ aba_inverts solve pinv fe o ab ab'.
Proof.
  intros R B U P AR NF. assert (AC : AddComm S) by apply laws_comm. destruct (reached_wfa solve pinv h ab R B U) as [T W].
  pose proof (reached_g solve pinv h ab R) as GA. eexists. split; [reflexivity|].
  set (ab' := Body _ _ _ _ _ _ _ _ _ _ _ _ _).
  assert (ST : step solve pinv (OSetG (m3mulv (rot (ab_Tbase ab)) (mlin (ab_g ab)))) ab = Some ab') by reflexivity.
  assert (T' : tree_ok ab') by (eapply (tree_step solve pinv); eauto).
  assert (W' : wfc ab') by (eapply (P_step solve pinv true); [exact T|apply wfa_wfc; exact W| |exact ST]; reflexivity).
  assert (P' : proper ab') by (destruct P; constructor; auto).
  apply aba_inverts_of; auto.
  { assert (AE : forall k i, articulated_ ab' k i = articulated_ ab k i).
    { induction k as [|k IH]; intros i; [reflexivity|]. cbn [articulated_]. change (children ab' i) with (children ab i).
      induction (children ab i) as [|x l IHl]; [reflexivity|]. cbn [fold_right]. rewrite IHl, IH. reflexivity. }
    intros i Hi. unfold joint_inertia, articulated. rewrite AE. apply AR. auto. }
  intros G. unfold ab'. cbn [ab_g ab_Tbase]. rewrite base_turned by (apply (pr_rigid _ P)).
  destruct (ab_g ab) as [gl ga]. cbn [mang mlin] in *. subst ga. auto.
Qed.

(** ** C19 *)
Lemma related_anc ab i j : related ab i j <-> ancb ab i j = true \/ ancb ab j i = true.
Proof. unfold related. rewrite <- !ancb_in. tauto. Qed.
Lemma c19_related h ab : reached solve pinv h ab -> base_fixed false h = true -> unmixed h = true -> proper ab -> articulable ab ->
  exists A M B, outcome (ask solve pinv QInertia ab) = Ok (AMat A) /\ outcome (ask solve pinv QAinvAba ab) = Ok (AMat M) /\
    inverse_of (ab_dof ab) A B /\ inverse_of (ab_dof ab) B A /\
    forall i j, (i < ab_dof ab)%nat -> (j < ab_dof ab)%nat -> related ab i j -> entry M i j = entry B i j.
Proof.
  intros R Bf U P AR. assert (AC : AddComm S) by apply laws_comm. destruct (reached_wfa solve pinv h ab R Bf U) as [T W].
  destruct (out_ainv solve pinv ab T W) as (M & EM & HM).
  exists (mat (ab_dof ab) (ab_dof ab) (Av ab)), (mat (ab_dof ab) (ab_dof ab) M), (mat (ab_dof ab) (ab_dof ab) (ainvv ab)).
  split; [|split; [exact EM|split; [|split]]].
  - cbn [ask]. rewrite outcome_wrap, (out_Inertia ab T (wfa_wfc _ W)). reflexivity.
  - intros i j Hi Hj. rewrite total_ksum, <- (A_ainvv ab T P AR i j) by auto. apply ksum_ext. intros k Hk. rewrite !entry_mat by auto. auto.
  - intros i j Hi Hj. rewrite total_ksum, Nat.eqb_sym, <- (A_ainvv ab T P AR j i) by auto. apply ksum_ext. intros k Hk. rewrite !entry_mat by auto.
    rewrite (Av_sym ab T P k j), (ainvv_sym ab T P AR i k) by auto. ring.
  - intros i j Hi Hj Rl. rewrite !entry_mat by auto. apply related_anc in Rl. destruct Rl as [Rl|Rl].
    + apply HM; auto.
    + destruct (HM j i Hj Hi Rl) as [_ E]. rewrite E. apply ainvv_sym; auto.
Qed.
Lemma serial_related ab : tree_ok ab -> serial ab -> forall i j, (i < ab_dof ab)%nat -> (j < ab_dof ab)%nat -> related ab i j.
Proof.
  intros T Hs.
  assert (G : forall j i, (j < ab_dof ab)%nat -> (i <= j)%nat -> ancb ab i j = true).
  { induction j as [|j IH]; intros i Hj Hi.
    - replace i with 0%nat by lia. apply ancb_self; auto.
    - rewrite (ancb_step ab T) by auto.
      assert (PJ : par ab (Datatypes.S j) = Some j).
      { unfold par. rewrite (Hs _ Hj). destruct (Z.ltb_spec (Z.of_nat (Datatypes.S j) - 1) 0); [lia|]. f_equal. lia. }
      rewrite PJ. destruct (Nat.eq_dec i (Datatypes.S j)) as [->|N]; [rewrite Nat.eqb_refl; auto|].
      rewrite IH by lia. apply orb_true_r. }
  intros i j Hi Hj. apply related_anc. destruct (le_ge_dec i j); [left|right]; apply G; auto.
Qed.
Lemma c19 h ab : reached solve pinv h ab -> base_fixed false h = true -> unmixed h = true -> proper ab -> articulable ab -> serial ab ->
  exists A M, outcome (ask solve pinv QInertia ab) = Ok (AMat A) /\ outcome (ask solve pinv QAinvAba ab) = Ok (AMat M) /\
    inverse_of (ab_dof ab) A M /\ inverse_of (ab_dof ab) M A.
Proof.
  intros R Bf U P AR Hs. destruct (c19_related h ab R Bf U P AR) as (A & M & B & EA & EM & I1 & I2 & H). exists A, M.
  assert (T : tree_ok ab) by (eapply tree_reached; eauto).
  assert (HE : forall i j, (i < ab_dof ab)%nat -> (j < ab_dof ab)%nat -> entry M i j = entry B i j) by (intros; apply H; auto; apply serial_related; auto).
  repeat split; auto.
  - intros i j Hi Hj. rewrite <- (I1 i j) by auto. apply total_ext. intros k Hk. apply in_seq in Hk. rewrite HE by (auto; lia). auto.
  - intros i j Hi Hj. rewrite <- (I2 i j) by auto. apply total_ext. intros k Hk. apply in_seq in Hk. rewrite HE by (auto; lia). auto.
Qed.
End AbaApi.

(** ** C20, C45: no laws needed *)
Section Defects.
Context {S : Scal}.
Variable solve : list (list K) -> list K -> list K.
Variable pinv : list (list K) -> K -> list (list K) * bool.
Lemma c20 h ab mem i j : reached solve pinv h ab -> i < ab_dof ab -> j < ab_dof ab -> ~ related ab i j ->
  exists M, outcome (ask solve pinv QAinvAba (cold ab mem)) = Ok (AMat M) /\ entry M i j = c_Ainv (ca_aba mem) i j.
Proof.
  intros R Hi Hj NR. assert (T : tree_ok ab) by (eapply tree_reached; eauto).
  pose proof (cold_tree ab mem T) as T'.
  eexists. cbn [ask]. rewrite outcome_wrap. unfold q_InertiaInverseAba. rewrite outcome_on_cache. cbn [cold set_cache ab_cache bind].
  split; [reflexivity|].
  destruct (ensure_Ainv_value (cold ab mem) T' (all_clear mem)) as (_ & _ & _ & X).
  - apply inv_all_clear.
  - intros H; discriminate.
  - cbn [set_cache ab_dof]. rewrite entry_mat by auto. change (set_cache ab (Some (all_clear mem))) with (cold ab mem).
    assert (N1 : ancb ab i j = false) by (destruct (ancb ab i j) eqn:E; auto; destruct NR; left; apply ancb_in; auto).
    assert (N2 : ancb ab j i = false) by (destruct (ancb ab j i) eqn:E; auto; destruct NR; right; apply ancb_in; auto).
    rewrite X; auto.
Qed.

Section Loads.
Variable ab : body.
Variable l : Z -> option inertia.
Let ab' := with_links ab (ab_rbs ab) l.
Lemma ld_Tp c : ensure_Tp ab' c = ensure_Tp ab c. Proof. reflexivity. Qed.
Lemma ld_Tw c : ensure_Tw ab' c = ensure_Tw ab c. Proof. reflexivity. Qed.
Lemma ld_of : oa_fwd_step ab' = oa_fwd_step ab. Proof. reflexivity. Qed.
Lemma ld_ai : aba_inertia ab' = aba_inertia ab. Proof. reflexivity. Qed.
Lemma ld_ob : oa_back_step ab' = oa_back_step ab. Proof. reflexivity. Qed.
Lemma ld_oacc : oa_acc ab' = oa_acc ab. Proof. reflexivity. Qed.
Lemma ld_cf : occ_fwd_step ab' = occ_fwd_step ab. Proof. reflexivity. Qed.
Lemma ld_cb : occ_back_step ab' = occ_back_step ab. Proof. reflexivity. Qed.
Lemma ld_cl : occ_last ab' = occ_last ab. Proof. reflexivity. Qed.
Lemma ld_gf : og_fwd_step ab' = og_fwd_step ab. Proof. reflexivity. Qed.
Lemma ld_dof : ab_dof ab' = ab_dof ab. Proof. reflexivity. Qed.
Lemma ld_anc : anc_at ab' = anc_at ab. Proof. reflexivity. Qed.
Lemma ld_linv k off c : oa_inertia_inverse ab' k off c = oa_inertia_inverse ab k off c.
Proof. unfold oa_inertia_inverse. rewrite ld_Tp, ld_Tw, ld_of, ld_ob, ld_oacc, ld_dof, ld_anc. reflexivity. Qed.
Lemma ld_lam k off eps c : oa_inertia pinv ab' k off eps c = oa_inertia pinv ab k off eps c.
Proof. unfold oa_inertia. rewrite ld_linv. reflexivity. Qed.
Lemma ld_cc k off eps c : oa_cc pinv ab' k off eps c = oa_cc pinv ab k off eps c.
Proof.
  unfold oa_cc. rewrite ld_Tp, ld_cf, ld_cb, ld_cl, ld_dof, ld_anc. destruct (for_up _ _ _) as [[[v a] Ia] f].
  destruct (for_down _ _ _) as [[[[Ia' h] d] f'] x]. rewrite ld_Tw, ld_lam. reflexivity.
Qed.
Lemma ld_grav k off fe eps c : oa_gravity pinv ab' k off fe eps c = oa_gravity pinv ab k off fe eps c.
Proof.
  unfold oa_gravity. rewrite ld_Tw, ld_Tp, ld_gf, ld_cb, ld_cl, ld_dof, ld_anc. destruct (for_up _ _ _) as [Ia f].
  destruct (for_down _ _ _) as [[[[Ia' h] d] f'] x]. rewrite ld_lam. reflexivity.
Qed.
Lemma ld_ask q : opspace_aba (OAsk q) = true -> outcome (ask solve pinv q ab') = outcome (ask solve pinv q ab).
Proof.
  pose proof (eq_refl : ab_cache ab' = ab_cache ab) as EC.
  pose proof ld_linv as E1. pose proof ld_lam as E2. pose proof ld_cc as E3. pose proof ld_grav as E4. pose proof ld_dof as E5. clearbody ab'.
  destruct q; try discriminate; intros _; cbn [ask]; rewrite !outcome_wrap.
  - unfold q_ops_InertiaInverseAba. rewrite !outcome_on_cache, EC, E5. destruct (ab_cache ab); [|reflexivity]. destruct (idx (ab_dof ab) _); [|reflexivity].
    rewrite E1. reflexivity.
  - unfold q_ops_InertiaAba. rewrite !outcome_on_cache, EC, E5. destruct (ab_cache ab); [|reflexivity]. destruct (idx (ab_dof ab) _); [|reflexivity].
    rewrite E2. reflexivity.
  - unfold q_ops_CentrifugalCoriolisAba. rewrite !outcome_on_cache, EC, E5. destruct (ab_cache ab); [|reflexivity]. destruct (idx (ab_dof ab) _); [|reflexivity].
    rewrite E3. reflexivity.
  - unfold q_ops_GravityAba. rewrite !outcome_on_cache, EC, E5. destruct (ab_cache ab); [|reflexivity]. destruct (idx (ab_dof ab) _); [|reflexivity].
    rewrite E4. reflexivity.
Qed.
End Loads.
Lemma c45_ignored o q ab ab1 mem : load_op o = true -> step solve pinv o ab = Some ab1 -> opspace_aba (OAsk q) = true ->
  outcome (ask solve pinv q (cold ab1 mem)) = outcome (ask solve pinv q (cold ab mem)).
Proof.
  intros Ho St Hq.
  assert (E : exists l, cold ab1 mem = with_links (cold ab mem) (ab_rbs (cold ab mem)) l).
  { destruct o; try discriminate; cbn [step] in St; unfold add_load, replace_load, set_loads in St; destruct (ab_cache ab); try discriminate;
      try (destruct (ab_loads ab _)); inversion St; eexists; reflexivity. }
  destruct E as [l ->]. apply ld_ask. auto.
Qed.
End Defects.

Lemma c18_fresh {S : Scal} {AC : AddComm S} solve pinv h ab tau fe o mem : reached solve pinv h ab -> base_fixed false h = true -> unmixed h = true ->
  outcome (ask solve pinv (QAba tau fe o) ab) = outcome (ask solve pinv (QAba tau fe o) (cold ab mem)).
Proof. exact (aba_fresh solve pinv h ab mem tau fe o). Qed.
