(** The example application in Python (C68). *)
From Coq Require Import List Arith ZArith Bool Lia Reals Lra.
From Verif Require Import Scalar Base Spatial Joint Body Kin InvDyn FwdDyn Opspace OpspaceAba Deriv Sim Ops Control Instances Specs SpecCache SpecKin SpecDyn SpecOps SpecSim SpecControl SpecLoop SpecHold PyDemo
  TreeProofs CacheProofs CacheOps KinProofs WorldProofs BigSum DynProofs DynApi OpsCache OpsApi OpsTask ControlProofs SimProofs RealCalc RealMotion RealEnergy LoopProofs ViewProofs.
Import ListNotations.

Section Gen.
Context {S : Scal} {ES : EqSound S}.
Local Open Scope k_scope.
Variable solve : list (list K) -> list K -> list K.
Variable pinv : list (list K) -> K -> list (list K) * bool.

Lemma bits_zero st : (0 <= st < 64)%Z -> (forall i, (0 <= i < 6)%Z -> Z.testbit st i = false) -> st = 0%Z.
Proof.
  intros H B. apply Z.bits_inj'. intros n Hn. rewrite Z.bits_0. destruct (Z.lt_ge_cases n 6) as [L|L]; [apply B; lia|].
  destruct (Z.eq_dec st 0) as [->|N]; [apply Z.bits_0|]. apply Z.bits_above_log2; [lia|]. apply Z.log2_lt_pow2; [lia|].
  apply Z.lt_le_trans with (2 ^ 6)%Z; [cbn; lia|]. apply Z.pow_le_mono_r; lia.
Qed.
(** The loop goes on only when nothing at all is reported. *)
Lemma status_bool k r st : status_of k r st -> (py_bool st = false <->
  ~ within (c_x k) (snd (c_pos k (r_x r) (r_dx r))) /\ ~ within (c_dx k) (r_dx r) /\
  ~ within (c_ori_t k) (snd (c_ori k (r_R r) (r_w r))) /\ ~ within (c_w k) (r_w r) /\ r_s6 r = false /\ r_s3 r = false).
Proof.
  intros (H & B0 & B1 & B2 & B3 & B4 & B5). unfold py_bool. split.
  - intros E. apply negb_false_iff, Z.eqb_eq in E. subst st. rewrite Z.bits_0 in *.
    split; [intros X; apply B0 in X; discriminate|]. split; [intros X; apply B1 in X; discriminate|]. split; [intros X; apply B2 in X; discriminate|]. split; [intros X; apply B3 in X; discriminate|]. split; congruence.
  - intros (N0 & N1 & N2 & N3 & E4 & E5). apply negb_false_iff, Z.eqb_eq. apply bits_zero; [exact H|].
    intros i Hi. assert (Hx : (i = 0 \/ i = 1 \/ i = 2 \/ i = 3 \/ i = 4 \/ i = 5)%Z) by lia.
    destruct Hx as [->|[->|[->|[->|[->| ->]]]]]; [| | | |congruence|congruence]; apply Bool.not_true_iff_false; intros X; [apply N0, B0|apply N1, B1|apply N2, B2|apply N3, B3]; exact X.
Qed.

(** The robot the loop starts from. *)
Lemma idx_last n : (0 < n)%nat -> idx n (-1) = Some (n - 1)%nat.
Proof.
  intros H. unfold idx, norm_idx. cbn [Z.ltb Z.compare]. replace ((0 <=? -1 + Z.of_nat n)%Z) with true by (symmetry; apply Z.leb_le; lia). replace ((-1 + Z.of_nat n <? Z.of_nat n)%Z) with true by (symmetry; apply Z.ltb_lt; lia). cbn [andb]. f_equal. lia.
Qed.
Lemma demo_ready {AC : AddComm S} h ab home off : reached solve pinv h ab -> base_fixed false h = true -> one_threshold 0 h -> (0 < ab_dof ab)%nat -> List.length home = ab_dof ab ->
  exists a0 a x R h', called (set_q home ab) = Ok a0 /\ on solve pinv a0 a /\ reached solve pinv h' a /\ base_fixed false h' = true /\ one_threshold 0 h' /\
    outcome (ask solve pinv (QPos (-1) off) a) = Ok (AV3 x) /\
    forall pp po pj go fuel, demo solve pinv pp po pj home off go fuel ab =
      demo_loop solve pinv go (Controller (pp (v3add x (V3 0 (klit 2 10) 0))) (po R) (pj home) off None 0 0 0 0 true 0) fuel 0 a.
Proof.
  intros RH B OT D Hl. pose proof (tree_reached _ _ _ _ RH) as T. destruct (set_q_total' ab home ltac:(apply T) Hl) as (a0 & E0 & D0 & _).
  assert (R0 : reached solve pinv (h ++ [OSetQ home]) a0) by (apply (reached_snoc solve pinv h ab); [exact RH|cbn; rewrite E0; reflexivity]).
  assert (B0 : base_fixed false (h ++ [OSetQ home]) = true) by (rewrite fixed_snoc; auto).
  assert (OT0 : one_threshold 0 (h ++ [OSetQ home])) by (intros q y Hin; apply in_app_iff in Hin; destruct Hin as [Hin|[Hin|[]]]; [apply (OT q y Hin)|discriminate]).
  pose proof (on_start solve pinv _ a0 R0 B0 OT0) as O0. destruct (on_wf _ _ _ _ O0) as (T0 & W0 & _).
  assert (Dn : (0 < ab_dof a0)%nat) by lia.
  pose proof (out_Pos a0 (-1) off) as X2. rewrite (out_Tw a0 T0 W0), (idx_last _ Dn) in X2. cbn [bind] in X2. destruct (out_ok _ _ X2) as [a2 A2].
  set (x := iso_app _ _) in *.
  assert (O2 : on solve pinv a0 a2) by (eapply (on_ask solve pinv a0 a0 (QPos (-1) off) a2 (AV3 x) O0); [intros ? []|cbn [ask]; rewrite A2; reflexivity]).
  destruct (on_wf _ _ _ _ O2) as (T2 & W2 & _ & _ & D2 & _).
  pose proof (out_Ori a2 (-1)) as X3. rewrite (out_Tw a2 T2 W2), D2, (idx_last _ Dn) in X3. cbn [bind] in X3. destruct (out_ok _ _ X3) as [a3 A3].
  set (Rm := rot _) in *.
  assert (O3 : on solve pinv a0 a3) by (eapply (on_ask solve pinv a0 a2 (QOri (-1)) a3 (AM3 Rm) O2); [intros ? []|cbn [ask]; rewrite A3; reflexivity]).
  pose proof O3 as (h3 & c3 & R3 & B3 & OT3 & E3).
  exists a0, a3, x, Rm, h3. split; [rewrite E0; reflexivity|]. split; [exact O3|]. split; [exact R3|]. split; [exact B3|]. split; [exact OT3|]. split.
  - destruct (on_wf _ _ _ _ O3) as (T3 & W3 & _ & _ & D3 & _). cbn [ask]. rewrite outcome_wrap, (out_Pos a3 (-1) off), (out_Tw a3 T3 W3), D3, (idx_last _ Dn). cbn [bind]. unfold x. rewrite E3. reflexivity.
  - intros. unfold demo. rewrite E0. cbn [called bind]. rewrite A2. cbn [bind]. rewrite A3. cbn [bind]. reflexivity.
Qed.
End Gen.

Section Stops.
Context {S : Scal} {L : ScalLaws S} {ES : EqSound S}.
Local Open Scope k_scope.
Variable solve : list (list K) -> list K -> list K.
Variable pinv : list (list K) -> K -> list (list K) * bool.
#[local] Instance comm_demo : AddComm S := laws_comm.

(** The controller of the loop. *)
Definition demo_k (k : controller) : controller :=
  Controller (c_pos k) (c_ori k) (c_joint k) (c_off k) (c_rot k) (klit 1 100) (klit 1 100) (klit 1 100) (klit 1 100) (c_gravity k) (klit 1 1000).
Lemma c68_continues h ab go k fuel i ab' l e : reached solve pinv h ab -> base_fixed false h = true -> one_threshold 0 h -> go i = true ->
  demo_loop solve pinv go k (Datatypes.S fuel) i ab = Ok (ab', l, e) ->
  exists r, reads solve pinv k ab r /\
    let nothing := ~ within (klit 1 100) (snd (c_pos k (r_x r) (r_dx r))) /\ ~ within (klit 1 100) (r_dx r) /\
      ~ within (klit 1 100) (snd (c_ori k (r_R r) (r_w r))) /\ ~ within (klit 1 100) (r_w r) /\ r_s6 r = false in
    (nothing -> exists ab1 tau l1, demo_loop solve pinv go k fuel (Datatypes.S i) ab1 = Ok (ab', l1, e) /\ l = (tau, 0%Z) :: l1) /\
    (~ nothing -> e = true /\ List.length l = 1%nat).
Proof.
  intros RH B OT G. cbn [demo_loop]. rewrite G. change (py_opspace_control solve pinv (Some (klit 1 100, klit 1 100)) (Some (klit 1 100, klit 1 100)) (Some (klit 1 1000)) k ab) with (compute_opspace_control solve pinv (demo_k k) ab).
  destruct (compute_opspace_control solve pinv (demo_k k) ab) as [[a1 [tau st]]| |] eqn:C; try discriminate. cbn [bind]. intros E.
  destruct (control_reads solve pinv h ab (demo_k k) a1 tau st RH B OT C) as (r & RD & ST & _). exists r.
  assert (RD' : reads solve pinv k ab r) by (destruct RD; constructor; auto). split; [exact RD'|]. cbv zeta.
  pose proof (status_bool (demo_k k) r st ST) as SB. cbn [demo_k c_x c_dx c_ori_t c_w c_pos c_ori] in SB.
  destruct (py_bool st) eqn:P.
  - split; [|intros _; inversion E; auto]. intros (N0 & N1 & N2 & N3 & N4). exfalso. apply Bool.diff_true_false, SB. repeat split; auto.
    pose proof (reads_s3 _ _ _ _ _ RD) as X. rewrite N4 in X. exact X.
  - destruct SB as [SB _]. specialize (SB eq_refl). destruct SB as (N0 & N1 & N2 & N3 & N4 & N5). split; [|intros N; exfalso; apply N; repeat split; auto].
    intros _. destruct (demo_loop solve pinv go k fuel (Datatypes.S i) a1) as [[[a2 l2] e2]| |] eqn:F; try discriminate. cbn [bind] in E. inversion E; subst.
    exists a1, tau, l2. split; [exact F|]. apply negb_false_iff, Z.eqb_eq in P. subst st. reflexivity.
Qed.
Lemma c68_stops h ab pp po pj home off go fuel ab' l e : reached solve pinv h ab -> base_fixed false h = true -> one_threshold 0 h -> (0 < ab_dof ab)%nat -> at_rest ab ->
  klt 0 (klit 1 100 * klit 1 100) = true -> go 0%nat = true ->
  demo solve pinv pp po pj home off go (Datatypes.S fuel) ab = Ok (ab', l, e) -> exists tau st, l = [(tau, st)] /\ e = true /\ Z.testbit st 1 = true.
Proof.
  intros RH B OT D Z0 Hk G E.
  assert (Hl : List.length home = ab_dof ab).
  { destruct (Nat.eq_dec (List.length home) (ab_dof ab)) as [X|X]; auto. exfalso. unfold demo, set_q in E. apply Nat.eqb_neq in X. rewrite X in E. discriminate. }
  destruct (demo_ready solve pinv h ab home off RH B OT D Hl) as (a0 & a & x & R & h' & E0 & O & R' & B' & OT' & _ & F). rewrite F in E. clear F.
  assert (Hq : ab_dq a = ab_dq ab /\ ab_dof a = ab_dof ab).
  { destruct (on_wf _ _ _ _ O) as (_ & _ & _ & _ & Da & _ & Qa). destruct (set_q home ab) as [b []|b|] eqn:X; inversion E0; subst b. apply set_q_frame in X. destruct X as ([F1 _] & F2 & _). split; congruence. }
  destruct Hq as [Hq Hd].
  assert (Hz : forall i, coef (ab_dq a) i = 0).
  { intros i. rewrite Hq. destruct (Nat.lt_ge_cases i (ab_dof ab)) as [X|X]; [apply (Z0 i X)|]. unfold coef. apply nth_overflow. pose proof (tree_reached _ _ _ _ RH) as T. rewrite (tk_dq _ T). exact X. }
  cbn [demo_loop] in E. rewrite G in E. match type of E with bind (py_opspace_control _ _ _ _ _ ?k _) _ = _ => set (kk := k) in *; change (py_opspace_control solve pinv (Some (klit 1 100, klit 1 100)) (Some (klit 1 100, klit 1 100)) (Some (klit 1 1000)) kk a) with (compute_opspace_control solve pinv (demo_k kk) a) in E end.
  destruct (compute_opspace_control solve pinv (demo_k kk) a) as [[a1 [tau st]]| |] eqn:C; try discriminate. cbn [bind] in E.
  pose proof (c44_rest solve pinv h' a (demo_k kk) a1 tau st R' B' OT' C Hz Hk) as P. rewrite P in E. inversion E; subst. exists tau, st. split; [auto|]. split; [auto|].
  destruct (control_reads solve pinv h' a (demo_k kk) ab' tau st R' B' OT' C) as (r & RD & (_ & _ & H1 & _) & _). apply H1. right.
  rewrite (reads_dx _ _ _ _ _ RD), squares_zero; [exact Hk|]. apply Forall_forall. intros y Hy. apply in_map_iff in Hy. destruct Hy as (row & <- & _). apply rate_zero; auto.
Qed.
End Stops.

(** Over the reals: the program ends 0.2 m from its goal. *)
Section Short.
Variable solve : list (list (@K RScal)) -> list (@K RScal) -> list (@K RScal).
Variable pinv : list (list (@K RScal)) -> @K RScal -> list (list (@K RScal)) * bool.
Local Existing Instance RScal.
#[local] Instance comm_short : AddComm RScal := @laws_comm RScal RLaws.
Local Open Scope R_scope.
Lemma lit_pos : @klt RScal k0 (kmul (klit 1 100) (klit 1 100)) = true.
Proof. change (@klt RScal k0 (kmul (klit 1 100) (klit 1 100))) with (if Rlt_dec 0 (1 / 100 * (1 / 100)) then true else false). destruct (Rlt_dec _ _) as [H|H]; [reflexivity|exfalso; apply H; lra]. Qed.
Lemma far_off (x : v3) : ~ within (S:=RScal) (klit 1 100) [vx x - vx (v3add x (V3 0 (klit 2 10) 0)); vy x - vy (v3add x (V3 0 (klit 2 10) 0)); vz x - vz (v3add x (V3 0 (klit 2 10) 0))].
Proof.
  destruct x as [a b c]. intros [H|H].
  - change ((if Rlt_dec (1 / 100) 0 then true else false) = true) in H. destruct (Rlt_dec _ _) as [X|X]; [lra|discriminate].
  - change ((if Rlt_dec (0 + (a - (a + 0)) * (a - (a + 0)) + (b - (b + 2 / 10)) * (b - (b + 2 / 10)) + (c - (c + 0)) * (c - (c + 0))) (1 / 100 * (1 / 100)) then true else false) = true) in H.
    destruct (Rlt_dec _ _) as [X|X]; [|discriminate].
    replace (a - (a + 0)) with 0 in X by ring. replace (b - (b + 2 / 10)) with (- (2 / 10)) in X by ring. replace (c - (c + 0)) with 0 in X by ring. lra.
Qed.
Lemma c68_short h (ab : @body RScal) pp po pj home off : reached solve pinv h ab -> base_fixed false h = true -> one_threshold k0 h -> proper ab -> (0 < ab_dof ab)%nat ->
  at_rest ab -> List.length home = ab_dof ab ->
  (forall goal x dx, List.length (fst (pp goal x dx)) = 3%nat /\ snd (pp goal x dx) = [vx x - vx goal; vy x - vy goal; vz x - vz goal]) ->
  (forall goal Q w, List.length (fst (po goal Q w)) = 3%nat) -> (forall goal q dq, List.length (pj goal q dq) = ab_dof ab) ->
  exists ab' tau st, (forall go fuel, go 0%nat = true -> demo solve pinv pp po pj home off go (Datatypes.S fuel) ab = Ok (ab', [(tau, st)], true)) /\
    Z.testbit st 0 = false /\
    state_of ab' = textbook MRk4 (ab_dof ab) (accel solve pinv ab (sim_query false tau (fun _ => None) (@IdOpts RScal true true false (1 / 100)))) (1 / 1000) (home, repeat 0 (ab_dof ab)).
Proof.
  intros RH B OT P D Z0 Hl Hp Ho Hj. pose proof (tree_reached _ _ _ _ RH) as T.
  destruct (demo_ready solve pinv h ab home off RH B OT D Hl) as (a0 & a & x & R & h' & E0 & O & R' & B' & OT' & Px & F).
  set (kk := Controller (pp (v3add x (V3 0 (klit 2 10) 0))) (po R) (pj home) off None 0 0 0 0 true 0).
  destruct (on_wf _ _ _ _ O) as (Ta & Wa & _ & _ & Da & Qa & Va).
  assert (X0 : exists c, a = set_cache (at_ ab home (ab_dq ab)) (Some c)).
  { destruct O as (h1 & c & _ & _ & _ & Ea). exists c. rewrite Ea. destruct (set_q home ab) as [b []|b|] eqn:X; inversion E0; subst b. clear - X T. revert X. unfold set_q. rewrite (tk_q _ T).
    destruct (Nat.eqb_spec (List.length home) (ab_dof ab)) as [Hh|Hh]; [|discriminate]. rewrite Hh, Nat.eqb_refl. cbn [negb]. destruct (veqb (ab_q ab) home) eqn:V; intros X; inversion X; subst; [|reflexivity].
    apply veqb_sound in V. rewrite <- V. destruct a0; reflexivity. }
  destruct X0 as (c & Ea). assert (Pa : proper a) by (rewrite Ea; apply at_proper; auto).
  assert (Dd : ab_dof a = ab_dof ab) by (rewrite Ea; reflexivity).
  assert (SF : sized_for (ab_dof a) (demo_k kk)).
  { rewrite Dd. split; [|split]; intros; [apply (Hp _ x0 dx)|apply Ho|apply Hj]. }
  destruct (control_total solve pinv (demo_k kk) h' a R' B' OT' Pa ltac:(lia) SF) as (a1 & tau & st & C).
  assert (Hz : forall i, coef (ab_dq a) i = 0).
  { intros i. rewrite Ea. cbn [set_cache at_ ab_dq]. destruct (Nat.lt_ge_cases i (ab_dof ab)) as [X|X]; [apply (Z0 i X)|]. unfold coef. apply nth_overflow. rewrite (tk_dq _ T). exact X. }
  pose proof (@c44_rest RScal RLaws REq solve pinv h' a (demo_k kk) a1 tau st R' B' OT' C Hz lit_pos) as PB.
  exists a1, tau, st. split; [|split].
  - intros go fuel G. rewrite F. cbn [demo_loop]. rewrite G. match goal with |- bind ?y _ = _ => change y with (compute_opspace_control solve pinv (demo_k kk) a) end. rewrite C. cbn [bind]. rewrite PB. reflexivity.
  - destruct (control_reads solve pinv h' a (demo_k kk) a1 tau st R' B' OT' C) as (r & RD & (_ & H0 & _) & _). apply Bool.not_true_iff_false. intros X. apply H0 in X. revert X.
    assert (Er : r_x r = x). { pose proof (reads_x _ _ _ _ _ RD) as Y. cbn [demo_k c_off kk] in Y. rewrite Px in Y. inversion Y. reflexivity. }
    rewrite Er. cbn [demo_k c_x c_pos kk]. rewrite (proj2 (Hp _ x _)). apply far_off.
  - destruct (drive_follows solve pinv h ab RH B P D [demo_k kk] h' a R' B' OT') as (l & Dl & Fl); [exists c; rewrite Ea; reflexivity|rewrite <- Dd; constructor; [exact SF|constructor]|].
    cbn [drive] in Dl. change (compute_opspace_control solve pinv (demo_k kk) a) with (@compute_opspace_control RScal solve pinv (demo_k kk) a) in Dl. rewrite C in Dl. inversion Dl; subst l. cbn [follows] in Fl. destruct Fl as [Fl _].
    change (c_dt (demo_k kk)) with (1 / 1000) in Fl. destruct (Rlt_dec 0 (1 / 1000)) as [Y|Y]; [|exfalso; apply Y; lra]. unfold state_of. refine (eq_trans Fl _). f_equal. unfold state_of. rewrite Ea. cbn [set_cache at_ ab_q ab_dq]. f_equal.
    apply (list_coef_ext (ab_dof ab)); [apply (tk_dq _ T)|apply repeat_length|]. intros i Hi. refine (eq_trans (Z0 i Hi) _). symmetry. exact (nth_repeat (@k0 RScal) (ab_dof ab) i).
Qed.
End Short.
