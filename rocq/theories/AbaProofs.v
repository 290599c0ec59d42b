(** The articulated-body algorithm: values determined by the state. *)
From Coq Require Import List Arith ZArith Bool Lia Ring Field.
From Verif Require Import Scalar Base Spatial SpecGeo Joint Body Kin InvDyn FwdDyn Opspace OpspaceAba Deriv Sim Ops Specs SpecCache SpecKin SpecDyn SpecAba SpatialProofs TreeProofs CacheProofs CacheOps.
Import ListNotations.

Section Sval.
Context {S : Scal}.
Variable ab : body.
Hypothesis T : tree_ok ab.
Let n := ab_dof ab.

(** ** Recursion over the children *)
Definition isch (i c : nat) : bool := match par ab c with Some p => Nat.eqb p i | None => false end.
(** Children of [j] with index at least [m]. *)
Definition chfrom (m j : nat) : list nat := filter (isch j) (seq m (n - m)).
Lemma chfrom_end j : chfrom n j = []. Proof. unfold chfrom. rewrite Nat.sub_diag. reflexivity. Qed.
Lemma chfrom_step m j : m < n -> chfrom m j = if isch j m then m :: chfrom (Datatypes.S m) j else chfrom (Datatypes.S m) j.
Proof. intros H. unfold chfrom. replace (n - m) with (Datatypes.S (n - Datatypes.S m)) by lia. cbn. reflexivity. Qed.
Lemma chfrom_all m j : j < n -> m <= Datatypes.S j -> chfrom m j = children ab j.
Proof.
  intros Hj Hm. assert (E0 : children ab j = chfrom 0 j) by (unfold chfrom; rewrite Nat.sub_0_r; reflexivity). rewrite E0.
  assert (G : forall d, d <= Datatypes.S j -> chfrom 0 j = chfrom d j).
  { induction d; intros Hd; auto. rewrite IHd by lia. rewrite chfrom_step by lia.
    destruct (isch j d) eqn:E; auto. unfold isch in E. destruct (par ab d) as [p|] eqn:P; [|discriminate].
    apply Nat.eqb_eq in E. subst. apply (tree_par _ _ _ T) in P; fold n; lia. }
  rewrite (G m); auto.
Qed.
Lemma children_in i c : In c (children ab i) <-> c < n /\ par ab c = Some i.
Proof.
  unfold children. rewrite filter_In, in_seq. fold n. split.
  - intros [H1 H2]. destruct (par ab c) as [p|]; [|discriminate]. apply Nat.eqb_eq in H2. subst. split; [lia|auto].
  - intros [H1 H2]. rewrite H2, Nat.eqb_refl. split; [lia|auto].
Qed.

Section Gen.
Context {A : Type} (base : nat -> A) (g : nat -> A -> A -> A).
Fixpoint srec (fuel i : nat) : A :=
  match fuel with
  | O => base i
  | Datatypes.S k => fold_right (fun c acc => g c (srec k c) acc) (base i) (children ab i)
  end.
Definition sval (i : nat) : A := srec n i.
Lemma srec_fuel : forall k i, i < n -> n - i <= k -> srec k i = srec (n - i) i.
Proof.
  induction k as [k IH] using lt_wf_ind. intros i Hi Hk. destruct k; [lia|].
  destruct (n - i) as [|r] eqn:E; [lia|]. cbn.
  assert (G : forall l, (forall c, In c l -> i < c < n) -> fold_right (fun c acc => g c (srec k c) acc) (base i) l =
     fold_right (fun c acc => g c (srec r c) acc) (base i) l).
  { induction l as [|c l IHl]; intros Hl; cbn; auto. rewrite IHl by (intros; apply Hl; cbn; auto).
    assert (i < c < n) by (apply Hl; cbn; auto). rewrite (IH k), (IH r) by lia. auto. }
  apply G. intros c Hc. apply children_in in Hc. destruct Hc as [Hc P].
  pose proof (tree_par _ _ _ T Hc P). lia.
Qed.
Lemma sval_eq i : i < n -> sval i = fold_right (fun c acc => g c (sval c) acc) (base i) (children ab i).
Proof.
  intros Hi. unfold sval at 1. destruct n as [|m] eqn:E; [lia|]. cbn.
  assert (G : forall l, (forall c, In c l -> i < c < n) -> fold_right (fun c acc => g c (srec m c) acc) (base i) l =
     fold_right (fun c acc => g c (sval c) acc) (base i) l).
  { induction l as [|c l IHl]; intros Hl; cbn; auto. rewrite IHl by (intros; apply Hl; cbn; auto).
    assert (i < c < n) by (apply Hl; cbn; auto). unfold sval. rewrite (srec_fuel m c), (srec_fuel n c) by lia. auto. }
  apply G. intros c Hc. apply children_in in Hc. destruct Hc as [Hc P].
  pose proof (tree_par _ _ _ T Hc P). lia.
Qed.
(** Contributions of the children of [j] with index at least [m]. *)
Definition part (m j : nat) : A := fold_right (fun c acc => g c (sval c) acc) (base j) (chfrom m j).
Lemma part_end j : part n j = base j. Proof. unfold part. rewrite chfrom_end. reflexivity. Qed.
Lemma part_all m j : j < n -> m <= Datatypes.S j -> part m j = sval j.
Proof. intros Hj Hm. unfold part. rewrite chfrom_all by auto. symmetry. apply sval_eq; auto. Qed.
Lemma part_other m j : m < n -> par ab m <> Some j -> part m j = part (Datatypes.S m) j.
Proof.
  intros Hm P. unfold part. rewrite chfrom_step by auto. unfold isch. destruct (par ab m) as [p|]; auto.
  destruct (Nat.eqb_spec p j); auto. subst. congruence.
Qed.
Lemma part_par m j : m < n -> par ab m = Some j -> part m j = g m (sval m) (part (Datatypes.S m) j).
Proof. intros Hm P. unfold part. rewrite chfrom_step by auto. unfold isch. rewrite P, Nat.eqb_refl. reflexivity. Qed.
End Gen.
End Sval.

Section Aba.
Context {S : Scal}.
Local Open Scope k_scope.
Variable ab : body.
Hypothesis T : tree_ok ab.
Let n := ab_dof ab.

(** ** Articulated inertias *)
Definition IAv : nat -> i6 :=
  sval ab (fun i => i6_of (inertia_at ab i))
          (fun c A acc => i6add acc (i6act (tpv ab c) (yields A (sub_at ab c)))).
Lemma IAv_articulated i : articulated ab i = IAv i.
Proof.
  unfold articulated, IAv, sval. generalize (ab_dof ab) at 1 2. intros k. revert i.
  induction k; intros; cbn [articulated_ srec]; auto. induction (children ab i); cbn; auto. rewrite IHl, IHk. reflexivity.
Qed.
Definition hv (i : nat) : force := i6mul (IAv i) (sub_at ab i).
Definition dv (i : nat) : K := mdot (sub_at ab i) (hv i).
Lemma dv_joint i : dv i = joint_inertia ab i.
Proof. unfold joint_inertia. rewrite IAv_articulated. reflexivity. Qed.
(** What the cache ends up holding. *)
Definition Iav (i : nat) : i6 := match par ab i with None => IAv i | Some _ => yields (IAv i) (sub_at ab i) end.
Definition art_at (i : nat) (Ia : arr i6) (h : arr force) (d : arr K) : Prop :=
  Ia i = Iav i /\ h i = hv i /\ d i = dv i.
Definition art_all (Ia : arr i6) (h : arr force) (d : arr K) : Prop := forall i, (i < n)%nat -> art_at i Ia h d.
Definition IAg (c : nat) (A acc : i6) : i6 := i6add acc (i6act (tpv ab c) (yields A (sub_at ab c))).
(** Links [m..] processed. *)
Definition art_stage (m : nat) (Ia : arr i6) (h : arr force) (d : arr K) : Prop :=
  (forall j, (j < m)%nat -> Ia j = part ab (fun i => i6_of (inertia_at ab i)) IAg m j) /\
  (forall j, (m <= j < n)%nat -> art_at j Ia h d).
Lemma IAv_part j : (j < n)%nat -> part ab (fun i => i6_of (inertia_at ab i)) IAg (Datatypes.S j) j = IAv j.
Proof. intros Hj. apply part_all; auto. Qed.
Lemma art_start Ia h d : (forall j, (j < n)%nat -> Ia j = i6_of (inertia_at ab j)) -> art_stage n Ia h d.
Proof. intros H. split; [|lia]. intros j Hj. unfold n; rewrite part_end. auto. Qed.
Lemma art_end Ia h d : art_stage 0 Ia h d -> art_all Ia h d.
Proof. intros [_ H] i Hi. apply H. lia. Qed.
(** One step, from scratch. *)
Lemma art_step Tp i Ia h d : tp_ok ab Tp -> (i < n)%nat -> art_stage (Datatypes.S i) Ia h d ->
  let '(Ia', h', d') := aba_inertia ab Tp false i (Ia, h, d) in art_stage i Ia' h' d' /\ art_at i Ia' h' d'.
Proof.
  intros HT Hi [H1 H2]. unfold aba_inertia.
  assert (E : Ia i = IAv i) by (rewrite H1 by lia; apply IAv_part; auto).
  destruct (par ab i) as [p|] eqn:P.
  - pose proof (tree_par _ _ _ T Hi P) as Hp.
    assert (X : art_at i (upd (upd Ia i (i6sub (Ia i) (i6outer (i6mul (Ia i) (sub_at ab i)) (mdot (sub_at ab i) (i6mul (Ia i) (sub_at ab i)))))) p
       (i6add (upd Ia i (i6sub (Ia i) (i6outer (i6mul (Ia i) (sub_at ab i)) (mdot (sub_at ab i) (i6mul (Ia i) (sub_at ab i))))) p)
          (i6act (Tp i) (i6sub (Ia i) (i6outer (i6mul (Ia i) (sub_at ab i)) (mdot (sub_at ab i) (i6mul (Ia i) (sub_at ab i))))))))
       (upd h i (i6mul (Ia i) (sub_at ab i))) (upd d i (mdot (sub_at ab i) (i6mul (Ia i) (sub_at ab i))))).
    { unfold art_at. rewrite upd_other by lia. rewrite !upd_same, E. unfold Iav, yields. rewrite P. auto. }
    split; [|exact X]. split.
    + intros j Hj. destruct (Nat.eq_dec j p) as [->|N].
      * rewrite upd_same. rewrite upd_other by lia. rewrite H1 by lia. rewrite (part_par ab _ _ i p) by auto.
        unfold IAg at 2. fold IAg. rewrite (HT i p) by auto. fold IAv. change (sval ab (fun i => i6_of (inertia_at ab i)) IAg) with IAv. rewrite E. reflexivity.
      * rewrite !upd_other by lia. rewrite H1 by lia. symmetry. apply part_other; auto. congruence.
    + intros j Hj. destruct (Nat.eq_dec j i) as [->|N]; [exact X|].
      unfold art_at. rewrite !upd_other by lia. apply H2. lia.
  - assert (X : art_at i Ia (upd h i (i6mul (Ia i) (sub_at ab i))) (upd d i (mdot (sub_at ab i) (i6mul (Ia i) (sub_at ab i))))).
    { unfold art_at. rewrite !upd_same, E. unfold Iav. rewrite P. auto. }
    split; [|exact X]. split.
    + intros j Hj. rewrite H1 by lia. symmetry. apply part_other; auto. congruence.
    + intros j Hj. destruct (Nat.eq_dec j i) as [->|N]; [exact X|]. unfold art_at. rewrite !upd_other by lia. apply H2. lia.
Qed.
(** Either from scratch or with the cached values. *)
Definition art_st (abac : bool) (m : nat) Ia h d : Prop := if abac then art_all Ia h d else art_stage m Ia h d.
Lemma art_st_step abac Tp i Ia h d : tp_ok ab Tp -> (i < n)%nat -> art_st abac (Datatypes.S i) Ia h d ->
  let '(Ia', h', d') := aba_inertia ab Tp abac i (Ia, h, d) in art_st abac i Ia' h' d' /\ art_at i Ia' h' d'.
Proof. intros HT Hi H. destruct abac; [split; [exact H|apply H; auto]|]. apply art_step; auto. Qed.
Lemma art_st_end abac Ia h d : art_st abac 0 Ia h d -> art_all Ia h d.
Proof. destruct abac; auto. apply art_end. Qed.

(** ** The three passes *)
Definition vv (o : id_opts) : arr motion :=
  if o_cc o then velv ab else tval ab (fun i => mscale 0 (sub_at ab i)) (fun i v => madd (mscale 0 (sub_at ab i)) (mact (iso_inv (tpv ab i)) v)).
Definition biasa (o : id_opts) (i : nat) : motion :=
  match par ab i with None => mzero | Some _ => mcross (vv o i) (mscale (if o_cc o then qk (ab_dq ab) i else 0) (sub_at ab i)) end.
Definition biasf (o : id_opts) (fe : fmap) (i : nat) : force :=
  let fi := fcross (vv o i) (imul (inertia_at ab i) (vv o i)) in
  match fe i with None => fi | Some x => fsub fi (fact (iso_inv (twv ab i)) x) end.
Lemma vv_eq o i : (i < n)%nat -> vv o i = vel_at ab (tpv ab) (vv o) (if o_cc o then qk (ab_dq ab) i else 0) i.
Proof.
  intros Hi. unfold vv. destruct (o_cc o); [apply velv_eq; auto|]. rewrite tval_eq by auto.
  unfold vel_at. destruct (par ab i); reflexivity.
Qed.
Lemma aba_fwd Tp Tw velc abac o fe v a Ia f : tp_ok ab Tp -> (velc = true -> forall i, (i < n)%nat -> v i = velv ab i) ->
  (forall i, (i < n)%nat -> (exists x, fe i = Some x) -> Tw i = twv ab i) ->
  let '(v', a', Ia', f') := for_up n (aba_fwd_step ab Tp Tw velc abac o fe) (v, a, Ia, f) in
  (forall i, (i < n)%nat -> v' i = vv o i /\ a' i = biasa o i /\ f' i = biasf o fe i) /\
  if abac then Ia' = Ia else forall i, (i < n)%nat -> Ia' i = i6_of (inertia_at ab i).
Proof.
  intros HT Hv HW.
  pose proof (for_up_ind (fun m (s : arr motion * arr motion * arr i6 * arr force) => let '(v', a', Ia', f') := s in
     ((velc && o_cc o) = true -> v' = v) /\
     (forall i, (i < m)%nat -> v' i = vv o i /\ a' i = biasa o i /\ f' i = biasf o fe i) /\
     (if abac then Ia' = Ia else forall i, (i < m)%nat -> Ia' i = i6_of (inertia_at ab i))) n
     (aba_fwd_step ab Tp Tw velc abac o fe) (v, a, Ia, f)) as X.
  destruct (for_up n _ _) as [[[v' a'] Ia'] f']. cbn beta iota in X.
  destruct X as (_ & X); auto.
  - split; auto. split; [lia|]. destruct abac; auto. lia.
  - intros i [[[v1 a1] Ia1] f1] Hi (Y1 & Y2 & Y3). unfold aba_fwd_step.
    set (v2 := if negb velc || negb (o_cc o) then _ else v1).
    assert (V2 : forall j, (j <= i)%nat -> v2 j = vv o j).
    { intros j Hj. unfold v2. rewrite <- negb_andb. destruct (velc && o_cc o) eqn:E; cbn [negb].
      - rewrite Y1 by auto. apply andb_true_iff in E. destruct E as [E1 E2]. unfold vv. rewrite E2. apply Hv; auto; lia.
      - apply upd_lt with (b := vv o); [intros; apply Y2; lia| |lia].
        rewrite vv_eq by auto. unfold vel_at. destruct (par ab i) as [p|] eqn:P; auto.
        rewrite (HT i p) by auto. destruct (Y2 p) as (-> & _ & _); auto. apply (tree_par _ _ _ T); auto. }
    split; [|split].
    + intros E. unfold v2. rewrite <- negb_andb, E. auto.
    + intros j Hj. split; [apply V2; lia|]. split.
      * apply upd_lt with (b := biasa o); [intros; apply Y2; lia| |lia]. unfold biasa. destruct (par ab i); auto. rewrite V2 by auto. auto.
      * apply upd_lt with (b := biasf o fe); [intros; apply Y2; lia| |lia]. unfold biasf. rewrite V2 by auto.
        destruct (fe i) eqn:F; auto. rewrite HW by eauto. auto.
    + destruct abac; auto. intros j Hj. apply upd_lt with (b := fun i => i6_of (inertia_at ab i)); auto; lia.
Qed.

(** Bias force at link [i], torque-dependent; [x] is the joint term. *)
Section Bwd.
Variable o : id_opts.
Variable tau : list K.
Variable p0 : nat -> force.
Variable a0 : nat -> motion.
Definition pg (c : nat) (f acc : force) : force :=
  fadd acc (fact (tpv ab c) (fadd (fadd f (i6mul (yields (IAv c) (sub_at ab c)) (a0 c)))
     (fscale (aba_tau ab o c (qk tau c - mdot (sub_at ab c) f) / dv c) (hv c)))).
Definition pv : nat -> force := sval ab p0 pg.
Definition xv (i : nat) : K := aba_tau ab o i (qk tau i - mdot (sub_at ab i) (pv i)) / dv i.
Lemma aba_bwd Tp abac Ia h d f x a : tp_ok ab Tp -> (forall i, (i < n)%nat -> f i = p0 i /\ a i = a0 i) ->
  art_st abac n Ia h d ->
  let '(Ia', h', d', f', x') := for_down n (aba_back_step ab Tp abac o tau a) (Ia, h, d, f, x) in
  art_all Ia' h' d' /\ forall i, (i < n)%nat -> x' i = xv i.
Proof.
  intros HT Hf HI.
  pose proof (for_down_ind (fun m (s : arr i6 * arr force * arr K * arr force * arr K) => let '(Ia', h', d', f', x') := s in
     art_st abac m Ia' h' d' /\ (forall j, (j < m)%nat -> f' j = part ab p0 pg m j) /\
     (forall j, (m <= j < n)%nat -> x' j = xv j)) n (aba_back_step ab Tp abac o tau a) (Ia, h, d, f, x)) as X.
  destruct (for_down n _ _) as [[[[Ia' h'] d'] f'] x']. cbn beta iota in X. destruct X as (X1 & _ & X3).
  - split; auto. split; [|lia]. intros j Hj. unfold n; rewrite part_end. apply Hf; auto.
  - intros i [[[[Ia1 h1] d1] f1] x1] Hi (Y1 & Y2 & Y3). unfold aba_back_step.
    pose proof (art_st_step abac Tp i Ia1 h1 d1 HT Hi Y1) as Z. destruct (aba_inertia ab Tp abac i (Ia1, h1, d1)) as [[Ia2 h2] d2].
    destruct Z as [Z (E1 & E2 & E3)].
    assert (F : f1 i = pv i) by (rewrite Y2 by lia; apply part_all; auto).
    assert (XI : aba_tau ab o i (qk tau i - mdot (sub_at ab i) (f1 i)) / d2 i = xv i) by (rewrite F, E3; reflexivity).
    rewrite XI. split; [exact Z|]. split.
    + intros j Hj. destruct (par ab i) as [p|] eqn:P.
      * destruct (Nat.eq_dec j p) as [->|N].
        { rewrite upd_same. rewrite (part_par ab p0 pg i p) by auto. unfold pg at 1. fold pv. rewrite (HT i p) by auto.
          rewrite Y2 by (apply (tree_par _ _ _ T) in P; auto; lia). rewrite E1, E2, F. unfold Iav. rewrite P.
          destruct (Hf i Hi) as [_ ->]. reflexivity. }
        { rewrite upd_other by lia. rewrite Y2 by lia. symmetry. apply part_other; auto. congruence. }
      * rewrite Y2 by lia. symmetry. apply part_other; auto. congruence.
    + intros j Hj. destruct (Nat.eq_dec j i) as [->|N]; [apply upd_same|]. rewrite upd_other by lia. apply Y3. lia.
  - split; [apply (art_st_end abac); auto|]. intros i Hi. apply X3. lia.
Qed.
(** Last pass: (acceleration, joint acceleration) of link [i], given that of its
    parent, with root accelerations [r]. *)
Variable r : nat -> motion.
Definition lastp (i : nat) (a1 : motion) : motion * K :=
  let x := xv i - mdot a1 (hv i) / dv i in (madd a1 (mscale x (sub_at ab i)), x).
Definition lastv : nat -> motion * K :=
  tval ab (fun i => lastp i (r i)) (fun i ap => lastp i (madd (a0 i) (mact (iso_inv (tpv ab i)) (fst ap)))).
Lemma aba_last Tp h d a x : tp_ok ab Tp -> (o_grav o = true -> forall i, (i < n)%nat -> Tp i = tpv ab i) ->
  (forall i, (i < n)%nat -> h i = hv i /\ d i = dv i /\ x i = xv i /\ a i = a0 i) ->
  (forall i, (i < n)%nat -> par ab i = None -> r i = if o_grav o then mact (iso_inv (tpv ab i)) (mopp (ab_g ab)) else mzero) ->
  let '(a', x') := for_up n (aba_last_step ab Tp o h d) (a, x) in
  forall i, (i < n)%nat -> a' i = fst (lastv i) /\ x' i = snd (lastv i).
Proof.
  intros HT HR H Hr.
  pose proof (for_up_ind (fun m (s : arr motion * arr K) => let '(a', x') := s in
     (forall i, (i < m)%nat -> a' i = fst (lastv i) /\ x' i = snd (lastv i)) /\
     (forall i, (m <= i)%nat -> a' i = a i /\ x' i = x i)) n (aba_last_step ab Tp o h d) (a, x)) as X.
  destruct (for_up n _ _) as [a' x']. cbn beta iota in X. destruct X as [X _]; auto.
  - split; [lia|auto].
  - intros i [a1 x1] Hi [Y1 Y2]. unfold aba_last_step.
    destruct (H i Hi) as (E1 & E2 & E3 & E4). destruct (Y2 i (le_n _)) as [E5 E6].
    rewrite E1, E2, E5, E6, E3, E4.
    set (ai := match par ab i with None => _ | Some _ => _ end).
    assert (Q : lastv i = lastp i ai).
    { unfold lastv. rewrite tval_eq by auto. unfold ai. destruct (par ab i) as [p|] eqn:P.
      - rewrite (HT i p) by auto. fold lastv. destruct (Y1 p) as [-> _]; [apply (tree_par _ _ _ T); auto|]. reflexivity.
      - rewrite Hr by auto. destruct (o_grav o) eqn:G; auto. rewrite HR by auto. auto. }
    split.
    + intros j Hj. destruct (Nat.eq_dec j i) as [->|N].
      * rewrite !upd_same, Q. split; reflexivity.
      * rewrite !upd_other by auto. apply Y1. lia.
    + intros j Hj. rewrite !upd_other by lia. apply Y2. lia.
Qed.
End Bwd.
Definition abav (tau : list K) (fe : fmap) (o : id_opts) : nat -> motion * K :=
  lastv o tau (biasf o fe) (biasa o) (fun i => if o_grav o then mact (iso_inv (tpv ab i)) (mopp (ab_g ab)) else mzero).
(** The cached articulated inertias are those of the state. *)
Definition inva (c : cache) : Prop := is_aba (ca_aba c) = true ->
  art_all (c_Ia (ca_aba c)) (c_h (ca_aba c)) (c_d (ca_aba c)).
Lemma inva_same c c' : ca_aba c' = ca_aba c -> inva c -> inva c'.
Proof. unfold inva. intros ->. auto. Qed.
Lemma aba_value tau fe o c : inv ab c -> inva c ->
  inva (fst (forward_dynamics_aba ab tau fe o c)) /\
  forall i, (i < n)%nat -> snd (forward_dynamics_aba ab tau fe o c) i = snd (abav tau fe o i).
Proof.
  intros H HI. unfold forward_dynamics_aba. fold n.
  set (c1 := if has_ext ab fe then ensure_Tw ab c else c).
  assert (H1 : inv ab c1) by (unfold c1; destruct (has_ext ab fe); auto; apply ensure_Tw_inv; auto).
  assert (A1 : same_rest c c1) by (unfold c1; destruct (has_ext ab fe); [apply sr_Tw|apply sr_refl]).
  destruct (tp_ok_cond ab c1 (has_child ab || (o_grav o && has_root ab)) H1) as (H2 & HT); [intros ->; reflexivity|]. cbn zeta in *.
  set (c2 := if has_child ab || _ then ensure_Tp ab c1 else c1) in *.
  assert (A2 : same_rest c c2).
  { eapply sr_trans; [exact A1|]. unfold c2. destruct (_ || _); [apply sr_Tp|apply sr_refl]. }
  assert (HR : o_grav o = true -> forall i, (i < n)%nat -> c_Tp (ca_T c2) i = tpv ab i).
  { intros G i Hi. destruct (par ab i) as [p|] eqn:P; [apply (HT i p); auto|].
    unfold c2. rewrite G. replace (has_root ab) with true; [|symmetry; apply existsb_exists; exists i; rewrite P; split; [apply in_seq; cbn; fold n; lia|auto]].
    rewrite orb_true_r. apply ensure_Tp_at; auto. }
  assert (HW : forall i, (i < n)%nat -> (exists x, fe i = Some x) -> c_Tw (ca_T c2) i = twv ab i).
  { intros i Hi [x Hx]. transitivity (c_Tw (ca_T c1) i); [unfold c2; destruct (_ || _); auto; apply ensure_Tp_Tw|].
    unfold c1. rewrite (has_ext_ok ab fe i x) by auto. apply ensure_Tw_at; auto. }
  clearbody c2. clear c1 H1 A1.
  assert (HI2 : inva c2) by (destruct A2 as [t ->]; exact HI). clear A2 HI.
  pose proof (aba_fwd (c_Tp (ca_T c2)) (c_Tw (ca_T c2)) (is_vel (ca_vel c2)) (is_aba (ca_aba c2)) o fe
    (c_v (ca_vel c2)) (c_a (ca_rnea c2)) (c_Ia (ca_aba c2)) (c_f (ca_rnea c2)) HT (i_vel _ _ H2) HW) as X.
  destruct (for_up n (aba_fwd_step _ _ _ _ _ _ _) _) as [[[v a] Ia] f]. destruct X as [X XI].
  assert (ST : art_st (is_aba (ca_aba c2)) n Ia (c_h (ca_aba c2)) (c_d (ca_aba c2))).
  { unfold inva in HI2. destruct (is_aba (ca_aba c2)); cbn; [subst; auto|]. apply art_start; auto. }
  pose proof (aba_bwd o tau (biasf o fe) (biasa o) (c_Tp (ca_T c2)) (is_aba (ca_aba c2)) Ia (c_h (ca_aba c2)) (c_d (ca_aba c2)) f (fun _ => 0) a HT
    ltac:(intros i Hi; split; apply X; auto) ST) as Y.
  destruct (for_down n _ _) as [[[[Ia' h] d] f'] x]. destruct Y as [Y1 Y2].
  pose proof (aba_last o tau (biasf o fe) (biasa o) (fun i => if o_grav o then mact (iso_inv (tpv ab i)) (mopp (ab_g ab)) else mzero)
    (c_Tp (ca_T c2)) h d a x HT HR
    ltac:(intros i Hi; destruct (Y1 i Hi) as (_ & Q1 & Q2); destruct (X i Hi) as (_ & Q3 & _); auto) ltac:(auto)) as Z.
  destruct (for_up n (aba_last_step _ _ _ _ _) _) as [a' x']. cbn [fst snd]. split.
  - intros _. exact Y1.
  - intros i Hi. apply Z. auto.
Qed.
End Aba.
