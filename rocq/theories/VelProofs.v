(** InverseDynamicsVelocityDerivative. *)
From Coq Require Import List Arith ZArith Bool Lia Ring Field.
From Verif Require Import Scalar Base Spatial SpecGeo Joint Body Kin InvDyn FwdDyn Opspace OpspaceAba Deriv Sim Ops Specs SpecCache SpecKin SpecDyn SpatialProofs TreeProofs CacheProofs CacheOps JointProofs BigSum KinProofs WorldProofs DynProofs DynApi SpatialTac.
Import ListNotations.

Section Loops.
Context {S : Scal}.
Local Open Scope k_scope.
Variable ab : body.
Hypothesis T : tree_ok ab.
Let n := ab_dof ab.

Definition dv_eq (dv : arr2 motion) : Prop := forall i j, (i < n)%nat -> dv i j =
  if Nat.eqb j i then sub_at ab i else match par ab i with
    | Some p => if Nat.ltb j i then mact (iso_inv (tpv ab i)) (dv p j) else mzero | None => mzero end.
Definition da_eq (dv da : arr2 motion) : Prop := forall i j, (i < n)%nat -> da i j =
  if Nat.leb j i then
    let a := mcross (dv i j) (mscale (qk (ab_dq ab) i) (sub_at ab i)) in
    let a := if Nat.eqb j i then madd a (mcross (velv ab i) (sub_at ab i)) else a in
    match par ab i with Some p => madd a (mact (iso_inv (tpv ab i)) (da p j)) | None => a end
  else mzero.
Definition df_eq (dv da : arr2 motion) (df : arr2 force) : Prop := forall i j, (i < n)%nat -> df i j =
  if Nat.leb j i then fadd (fadd (imul (inertia_at ab i) (da i j)) (fcross (dv i j) (imul (inertia_at ab i) (velv ab i))))
                           (fcross (velv ab i) (imul (inertia_at ab i) (dv i j))) else fzero.

Lemma vd_fwd Tp v dv da df : tp_ok ab Tp -> (forall i, (i < n)%nat -> v i = velv ab i) ->
  for_up n (vd_fwd_step ab Tp v) (fun _ _ => mzero, fun _ _ => mzero, fun _ _ => fzero) = (dv, da, df) ->
  dv_eq dv /\ da_eq dv da /\ df_eq dv da df.
Proof.
  intros HT Hv E.
  assert (X : (fun m (s : arr2 motion * arr2 motion * arr2 force) => let '(dv, da, df) := s in
     (forall i j, (m <= i)%nat -> dv i j = mzero /\ da i j = mzero /\ df i j = fzero) /\
     (forall i j, (i < m)%nat -> dv i j = if Nat.eqb j i then sub_at ab i else match par ab i with
        | Some p => if Nat.ltb j i then mact (iso_inv (tpv ab i)) (dv p j) else mzero | None => mzero end) /\
     (forall i j, (i < m)%nat -> da i j = if Nat.leb j i then
        let a := mcross (dv i j) (mscale (qk (ab_dq ab) i) (sub_at ab i)) in
        let a := if Nat.eqb j i then madd a (mcross (velv ab i) (sub_at ab i)) else a in
        match par ab i with Some p => madd a (mact (iso_inv (tpv ab i)) (da p j)) | None => a end else mzero) /\
     (forall i j, (i < m)%nat -> df i j = if Nat.leb j i then fadd (fadd (imul (inertia_at ab i) (da i j)) (fcross (dv i j) (imul (inertia_at ab i) (velv ab i))))
                           (fcross (velv ab i) (imul (inertia_at ab i) (dv i j))) else fzero)) n
     (for_up n (vd_fwd_step ab Tp v) (fun _ _ => mzero, fun _ _ => mzero, fun _ _ => fzero))).
  { apply for_up_ind; [repeat split; intros; lia|]. clear E dv da df. intros m [[dv da] df] Hm (H0 & HV & HA & HF).
    unfold vd_fwd_step. cbv zeta. unfold row.
    assert (PL : forall i p, (i < Datatypes.S m)%nat -> par ab i = Some p -> Nat.eqb p m = false).
    { intros i p Hi P. apply Nat.eqb_neq. assert (Q : (p < i)%nat) by (apply (par_lt ab T i p); auto; lia). lia. }
    assert (LT : forall i, (i < Datatypes.S m)%nat -> i <> m -> (i < m)%nat) by (intros; lia).
    destruct (H0 m m) as (_ & _ & _); [lia|].
    split; [|split; [|split]].
    - intros i j Hi. destruct (Nat.eqb_spec i m); [lia|]. apply H0. lia.
    - intros i j Hi. destruct (Nat.eqb_spec i m) as [->|N].
      + destruct (Nat.eqb j m); auto. destruct (par ab m) as [p|] eqn:P; [|apply H0; lia].
        rewrite (PL m p), (HT m p) by auto. destruct (Nat.ltb j m); auto. apply H0; lia.
      + rewrite HV by auto. destruct (Nat.eqb j i); auto. destruct (par ab i) as [p|] eqn:P; auto. rewrite (PL i p) by auto. auto.
    - intros i j Hi. destruct (Nat.eqb_spec i m) as [->|N].
      + destruct (Nat.leb_spec j m).
        * destruct (par ab m) as [p|] eqn:P.
          -- rewrite (PL m p), (HT m p), Hv by auto. destruct (Nat.leb_spec j m); [|lia]. auto.
          -- destruct (Nat.leb_spec j m); [|lia]. rewrite Hv by auto. auto.
        * destruct (Nat.eqb_spec j m); [lia|]. destruct (par ab m) as [p|] eqn:P.
          -- destruct (Nat.leb_spec j m); [lia|]. apply H0; lia.
          -- destruct (Nat.leb_spec j m); [lia|]. apply H0; lia.
      + rewrite HA by auto. destruct (Nat.leb j i); auto. destruct (par ab i) as [p|] eqn:P; auto. rewrite (PL i p) by auto. auto.
    - intros i j Hi. destruct (Nat.eqb_spec i m) as [->|N].
      + destruct (Nat.leb_spec j m); [|apply H0; lia]. rewrite Hv by auto. auto.
      + rewrite HF by auto. auto. }
  rewrite E in X. destruct X as (_ & X). exact X.
Qed.
Lemma vd_back Tp dtau0 df j : tp_ok ab Tp -> forall i, (i < n)%nat ->
  fst (for_down n (vd_back_step ab Tp) (dtau0, df)) i j = back ab (fun i => df i j) i.
Proof.
  intros HT i Hi. rewrite <- (back_at ab T Tp (fun i => df i j) (fun _ => 0) (fun i => df i j)) by auto. fold n.
  assert (X : (fun m (s : arr2 K * arr2 force) (t : arr K * arr force) => (forall i, (m <= i)%nat -> (i < n)%nat -> fst s i j = fst t i) /\ (forall i, snd s i j = snd t i)) 0%nat
     (for_down n (vd_back_step ab Tp) (dtau0, df)) (for_down n (back_step ab Tp) (fun _ => 0, fun i => df i j))).
  { apply (for_down_ind2 (fun m (s : arr2 K * arr2 force) (t : arr K * arr force) => (forall i, (m <= i)%nat -> (i < n)%nat -> fst s i j = fst t i) /\ (forall i, snd s i j = snd t i))).
    - split; auto. lia.
    - intros m [d1 f1] [d2 f2] Hm [Hd Hf]. cbn [fst snd] in *. unfold vd_back_step, back_step, row, upd.
      destruct (par ab m) as [p|]; cbn [fst snd]; (split; [intros k H1 H2; destruct (Nat.eqb_spec k m); [rewrite Hf; auto|apply Hd; lia]|]); auto.
      intros k. destruct (Nat.eqb k p); auto. rewrite !Hf. auto. }
  apply X; auto. lia.
Qed.
Lemma vel_rnea ddq fe o c : inv ab c -> o_cc o = true -> forall i, (i < n)%nat -> c_v (ca_vel (id_rnea ab ddq fe o c)) i = velv ab i.
Proof.
  intros H Ho i Hi. unfold id_rnea.
  assert (H0 : inv ab (clear_crba c)) by (destruct H; constructor; cbn; auto; discriminate).
  unfold inverse_dynamics. cbn [is_crba ca_crba clear_crba with_crba andb].
  set (c1 := if _ || _ then ensure_Tw ab _ else _).
  assert (H1 : inv ab c1) by (unfold c1; destruct (_ || _); auto; apply ensure_Tw_inv; auto).
  destruct (has_child_ok ab c1 H1) as (H2 & HT & _). cbn in *.
  set (c2 := if has_child ab then ensure_Tp ab c1 else c1) in *.
  pose proof (id_fwd_vel ab T (c_Tp (ca_T c2)) (c_Tw (ca_T c2)) (is_vel (ca_vel c2)) o ddq fe (c_v (ca_vel c2)) (c_a (ca_rnea c2)) (c_f (ca_rnea c2)) HT (i_vel _ _ H2) Ho) as X.
  fold n in X. fold n. destruct (for_up n _ _) as [[v a] f]. destruct (for_down n _ _) as [tau f']. cbn in *. rewrite ?Ho. apply X. auto.
Qed.
Lemma vd_value ddq fe o c : inv ab c -> o_cc o = true -> exists dv da df, dv_eq dv /\ da_eq dv da /\ df_eq dv da df /\
  forall i j, (i < n)%nat -> snd (velocity_derivative ab ddq fe o c) i j = back ab (fun i => df i j) i.
Proof.
  intros H Ho. unfold velocity_derivative. rewrite Ho. cbn [negb].
  pose proof (id_rnea_inv ab T ddq fe o c H) as H1. destruct (has_child_ok ab _ H1) as (H2 & HT & X). cbn in HT, X.
  assert (V : forall i, (i < n)%nat -> c_v (ca_vel (if has_child ab then ensure_Tp ab (id_rnea ab ddq fe o c) else id_rnea ab ddq fe o c)) i = velv ab i).
  { intros i Hi. destruct X as [t ->]. cbn. apply vel_rnea; auto. }
  fold n. destruct (for_up n _ _) as [[dv da] df] eqn:E. exists dv, da, df. apply vd_fwd in E; auto. destruct E as (E1 & E2 & E3).
  split; [auto|]. split; [auto|]. split; [auto|]. intros i j Hi. rewrite <- (vd_back (c_Tp (ca_T (if has_child ab then ensure_Tp ab (id_rnea ab ddq fe o c) else id_rnea ab ddq fe o c))) (fun _ _ => 0)); auto.
  fold n. destruct (for_down n _ _). reflexivity.
Qed.
End Loops.

Section Polar.
Context {S : Scal} {L : ScalLaws S}.
Add Field kf : (@kfield S L).
Local Open Scope k_scope.

(** The robot with other joint velocities (and any cache). *)
Definition with_dq (ab : body) (c : cache) (dq : list K) : body :=
  Body (ab_name ab) (ab_graphics ab) (Some c) (ab_dof ab) (ab_rbs ab) (ab_q ab) dq (ab_g ab) (ab_loads ab) (ab_Tbase ab) (ab_Ibase ab) (ab_anc ab) (ab_sub ab).
Variable ab : body.
Hypothesis T : tree_ok ab.
Hypothesis R : rigid_robot ab.
Let n := ab_dof ab.
Variables (c1 c2 : cache) (x y : list K).
Hypothesis Hy : forall i, (i < n)%nat -> qk y i = qk (ab_dq ab) i + qk x i.
Let ax := with_dq ab c1 x.
Let ay := with_dq ab c2 y.
Lemma with_tree c d : tree_ok ab -> List.length d = ab_dof ab -> tree_ok (with_dq ab c d).
Proof. intros H E. destruct H. constructor; cbn; auto. eexists; reflexivity. Qed.
Hypothesis Lx : List.length x = n.
Hypothesis Ly : List.length y = n.
Let Tx : tree_ok ax := with_tree c1 x T Lx.
Let Ty : tree_ok ay := with_tree c2 y T Ly.

Variables (dv da : arr2 motion) (df : arr2 force).
Hypothesis EV : dv_eq ab dv.
Hypothesis EA : da_eq ab dv da.
Hypothesis EF : df_eq ab dv da df.

Lemma dv_zero i j : (i < n)%nat -> (i < j)%nat -> dv i j = mzero.
Proof.
  intros Hi Hj. rewrite EV by auto. destruct (Nat.eqb_spec j i); [lia|]. destruct (par ab i); auto. destruct (Nat.ltb_spec j i); auto; lia.
Qed.
Lemma da_zero i j : (i < n)%nat -> (i < j)%nat -> da i j = mzero.
Proof. intros Hi Hj. rewrite EA by auto. destruct (Nat.leb_spec j i); auto; lia. Qed.
Lemma da_uni i j : (i < n)%nat -> da i j = madd (madd (mcross (dv i j) (mscale (qk (ab_dq ab) i) (sub_at ab i))) (if Nat.eqb j i then mcross (velv ab i) (sub_at ab i) else mzero))
  (match par ab i with Some p => mact (iso_inv (tpv ab i)) (da p j) | None => mzero end).
Proof.
  intros Hi. rewrite EA by auto. cbv zeta. destruct (Nat.leb_spec j i).
  - destruct (Nat.eqb j i); destruct (par ab i); rewrite ?madd_zero_r; auto.
  - rewrite dv_zero by auto. destruct (Nat.eqb_spec j i); [lia|]. rewrite mcross_zero_l, !madd_zero_l.
    destruct (par ab i) as [p|] eqn:P; auto. assert (p < i)%nat by (apply (par_lt ab T i p); auto). rewrite da_zero by lia. rewrite mact_zero. auto.
Qed.
Lemma fcross_zero_r (a : motion) : fcross a fzero = fzero.
Proof. rewrite <- (fscale_zero_l fzero), fcross_scale_r, !fscale_zero_l. auto. Qed.
Lemma fscale_add_r k (a b : force) : fscale k (fadd a b) = fadd (fscale k a) (fscale k b).
Proof. vring. Qed.
Lemma df_uni i j : (i < n)%nat -> df i j = fadd (fadd (imul (inertia_at ab i) (da i j)) (fcross (dv i j) (imul (inertia_at ab i) (velv ab i))))
                           (fcross (velv ab i) (imul (inertia_at ab i) (dv i j))).
Proof.
  intros Hi. rewrite EF by auto. destruct (Nat.leb_spec j i); auto. rewrite dv_zero, da_zero by auto.
  rewrite imul_zero, fcross_zero_l, fcross_zero_r, !fadd_zero_l. auto.
Qed.

Definition SV (i : nat) := msum n (fun j => mscale (qk x j) (dv i j)).
Definition SA (i : nat) := msum n (fun j => mscale (qk x j) (da i j)).
Definition SF (i : nat) := fsum n (fun j => fscale (qk x j) (df i j)).
Lemma msum_ext m f g : (forall i, (i < m)%nat -> f i = g i) -> msum m f = msum m g.
Proof. apply bsum_ext. Qed.
Lemma msum_add m f g : msum m (fun i => madd (f i) (g i)) = madd (msum m f) (msum m g).
Proof. apply bsum_add; [apply madd_comm|apply madd_assoc|apply madd_zero_l]. Qed.
Lemma msum_single m i f : (i < m)%nat -> msum m (fun k => if Nat.eqb k i then f k else mzero) = f i.
Proof. apply bsum_single; [apply madd_comm|apply madd_zero_l]. Qed.
Lemma mcross_msum m f b : mcross (msum m f) b = msum m (fun i => mcross (f i) b).
Proof. apply (bsum_hom madd mzero madd mzero (fun a => mcross a b)); [apply mcross_zero_l|intros; apply mcross_add_l]. Qed.
Lemma fcross_msum m f b : fcross (msum m f) b = fsum m (fun i => fcross (f i) b).
Proof. apply (bsum_hom madd mzero fadd fzero (fun a => fcross a b)); [apply fcross_zero_l|intros; apply fcross_add_l]. Qed.
Lemma fcross_fsum m f a : fcross a (fsum m f) = fsum m (fun i => fcross a (f i)).
Proof. apply (bsum_hom fadd fzero fadd fzero (fcross a)); [apply fcross_zero_r|intros; apply fcross_add_r]. Qed.

Lemma SV_eq i : (i < n)%nat -> SV i = velv ax i.
Proof.
  induction i as [i IH] using lt_wf_ind. intros Hi. rewrite (velv_eq ax Tx) by auto. unfold vel_at. change (par ax i) with (par ab i).
  change (sub_at ax i) with (sub_at ab i). change (tpv ax) with (tpv ab). change (ab_dq ax) with x.
  unfold SV. destruct (par ab i) as [p|] eqn:P.
  - assert (Hp : (p < i)%nat) by (apply (par_lt ab T i p); auto). rewrite <- IH by lia. unfold SV. rewrite mact_msum.
    rewrite <- (msum_single n i (fun j => mscale (qk x j) (sub_at ab i))) by auto. rewrite <- msum_add. apply msum_ext. intros j Hj.
    rewrite EV by auto. rewrite P. destruct (Nat.eqb_spec j i) as [->|N].
    + rewrite (dv_zero p i) by lia. rewrite mact_scale, mact_zero, mscale_zero_r, madd_zero_r. auto.
    + rewrite madd_zero_l, mact_scale. destruct (Nat.ltb_spec j i); auto. rewrite dv_zero by lia. rewrite mact_zero. auto.
  - rewrite <- (msum_single n i (fun j => mscale (qk x j) (sub_at ab i))) by auto. apply msum_ext. intros j Hj.
    rewrite EV by auto. rewrite P. destruct (Nat.eqb j i); auto. apply mscale_zero_r.
Qed.
Lemma SA_eq i : (i < n)%nat -> SA i = madd (madd (mcross (SV i) (mscale (qk (ab_dq ab) i) (sub_at ab i))) (mscale (qk x i) (mcross (velv ab i) (sub_at ab i))))
  (match par ab i with Some p => mact (iso_inv (tpv ab i)) (SA p) | None => mzero end).
Proof.
  intros Hi. unfold SA, SV. rewrite mcross_msum.
  rewrite <- (msum_single n i (fun j => mscale (qk x j) (mcross (velv ab i) (sub_at ab i)))) by auto. rewrite <- msum_add.
  destruct (par ab i) as [p|] eqn:P; [rewrite mact_msum, <- msum_add|rewrite madd_zero_r]; apply msum_ext; intros j Hj;
    rewrite da_uni by auto; rewrite P; rewrite !mscale_add_r, mcross_scale_l; destruct (Nat.eqb j i); rewrite ?mact_scale, ?mscale_zero_r, ?madd_zero_r; auto.
Qed.
Lemma SF_eq i : (i < n)%nat -> SF i = fadd (fadd (imul (inertia_at ab i) (SA i)) (fcross (SV i) (imul (inertia_at ab i) (velv ab i))))
                           (fcross (velv ab i) (imul (inertia_at ab i) (SV i))).
Proof.
  intros Hi. unfold SF, SA, SV. rewrite !imul_msum, fcross_msum, fcross_fsum, <- !fsum_add. apply fsum_ext. intros j Hj.
  rewrite df_uni by auto. rewrite !fscale_add_r, !imul_scale, fcross_scale_l, fcross_scale_r. auto.
Qed.
Lemma vel_sum i : (i < n)%nat -> velv ay i = madd (velv ab i) (velv ax i).
Proof.
  induction i as [i IH] using lt_wf_ind. intros Hi. rewrite (velv_eq ax Tx), (velv_eq ay Ty), (velv_eq ab T) by auto. unfold vel_at.
  change (par ax i) with (par ab i). change (par ay i) with (par ab i).
  change (sub_at ax i) with (sub_at ab i). change (tpv ax) with (tpv ab). change (ab_dq ax) with x.
  change (sub_at ay i) with (sub_at ab i). change (tpv ay) with (tpv ab). change (ab_dq ay) with y. rewrite Hy by auto.
  destruct (par ab i) as [p|] eqn:P.
  - assert (Hp : (p < i)%nat) by (apply (par_lt ab T i p); auto). rewrite IH by lia. rewrite mact_add, mscale_add_l.
    rewrite !madd_assoc. f_equal. rewrite <- !madd_assoc. f_equal. apply madd_comm.
  - apply mscale_add_l.
Qed.
Lemma cc_sum i : (i < n)%nat -> ccv ay i = madd (madd (ccv ab i) (SA i)) (ccv ax i).
Proof.
  induction i as [i IH] using lt_wf_ind. intros Hi. rewrite (ccv_eq ax Tx), (ccv_eq ay Ty), (ccv_eq ab T) by auto. rewrite SA_eq by auto. rewrite SV_eq, vel_sum by auto.
  change (par ax i) with (par ab i). change (par ay i) with (par ab i).
  change (sub_at ax i) with (sub_at ab i). change (tpv ax) with (tpv ab). change (ab_dq ax) with x.
  change (sub_at ay i) with (sub_at ab i). change (tpv ay) with (tpv ab). change (ab_dq ay) with y. 
  destruct (par ab i) as [p|] eqn:P.
  - assert (Hp : (p < i)%nat) by (apply (par_lt ab T i p); auto). rewrite IH by lia. rewrite Hy by auto. rewrite !mact_add, mscale_add_l, !mcross_add_l, !mcross_add_r, !mcross_scale_r.
    repeat match goal with |- context [mact ?a ?b] => generalize (mact a b); intro end.
    repeat match goal with |- context [mscale ?a ?b] => generalize (mscale a b); intro end. vring.
  - rewrite (velv_eq ab T), (velv_eq ax Tx) by auto. unfold vel_at. rewrite P. change (par ax i) with (par ab i). rewrite P.
    change (sub_at ax i) with (sub_at ab i). change (ab_dq ax) with x. rewrite !mcross_scale_l, mcross_scale_r, mcross_self, !mscale_zero_r, !madd_zero_r. auto.
Qed.
Lemma ccf_sum i : (i < n)%nat -> ccf0 ay i = fadd (fadd (ccf0 ab i) (SF i)) (ccf0 ax i).
Proof.
  intros Hi. unfold ccf0. rewrite SF_eq by auto. rewrite SV_eq, cc_sum, vel_sum by auto. change (inertia_at ay i) with (inertia_at ab i). change (inertia_at ax i) with (inertia_at ab i).
  rewrite !imul_add, !fcross_add_l, !fcross_add_r.
  repeat match goal with |- context [fcross ?a ?b] => generalize (fcross a b); intro end.
  repeat match goal with |- context [imul ?a ?b] => generalize (imul a b); intro end. vring.
Qed.
Lemma back_fsum m f i : (i < n)%nat -> back ab (fun k => fsum m (f k)) i = ksum m (fun j => back ab (fun k => f k j) i).
Proof.
  intros Hi. induction m; cbn [ksum]; [apply back_zero; auto|]. rewrite <- IHm. rewrite <- back_add by auto. reflexivity.
Qed.
Lemma back_fscale k f i : (i < n)%nat -> back ab (fun a => fscale k (f a)) i = k * back ab f i.
Proof.
  intros Hi. rewrite !back_world, <- ksum_scale by auto. apply ksum_ext. intros a Ha. destruct (ancb ab i a); [|ring]. rewrite fact_scale, mdot_scale_r. auto.
Qed.
Lemma Cv_sum i : (i < n)%nat -> Cv ay i = Cv ab i + ksum n (fun j => qk x j * back ab (fun k => df k j) i) + Cv ax i.
Proof.
  intros Hi. unfold Cv. change (back ay) with (back ab). change (back ax) with (back ab).
  rewrite (back_ext ab T R _ (fun k => fadd (fadd (ccf0 ab k) (SF k)) (ccf0 ax k))) by (auto; intros; apply ccf_sum; auto).
  rewrite !back_add by auto. unfold SF. rewrite back_fsum by auto. do 2 f_equal. apply ksum_ext. intros. apply back_fscale; auto.
Qed.
End Polar.

Section Homogeneous.
Context {S : Scal} {L : ScalLaws S}.
Add Field kf2 : (@kfield S L).
Local Open Scope k_scope.
Variable ab : body.
Hypothesis T : tree_ok ab.
Hypothesis R : rigid_robot ab.
Let n := ab_dof ab.
Variables (c1 c2 : cache) (x y : list K) (t : K).
Hypothesis Hy : forall i, (i < n)%nat -> qk y i = t * qk x i.
Hypothesis Lx : List.length x = n.
Hypothesis Ly : List.length y = n.
Let ax := with_dq ab c1 x.
Let ay := with_dq ab c2 y.
Let Tx : tree_ok ax := with_tree ab c1 x T Lx.
Let Ty : tree_ok ay := with_tree ab c2 y T Ly.
Lemma vel_hom i : (i < n)%nat -> velv ay i = mscale t (velv ax i).
Proof.
  induction i as [i IH] using lt_wf_ind. intros Hi. rewrite (velv_eq ax Tx), (velv_eq ay Ty) by auto. unfold vel_at.
  change (par ax i) with (par ab i). change (par ay i) with (par ab i).
  change (sub_at ax i) with (sub_at ab i). change (tpv ax) with (tpv ab). change (ab_dq ax) with x.
  change (sub_at ay i) with (sub_at ab i). change (tpv ay) with (tpv ab). change (ab_dq ay) with y. rewrite Hy by auto. rewrite <- mscale_mul.
  destruct (par ab i) as [p|] eqn:P; auto.
  assert (Hp : (p < i)%nat) by (apply (par_lt ab T i p); auto). rewrite IH by lia. rewrite mact_scale, mscale_add_r. auto.
Qed.
Lemma cc_hom i : (i < n)%nat -> ccv ay i = mscale (t * t) (ccv ax i).
Proof.
  induction i as [i IH] using lt_wf_ind. intros Hi. rewrite (ccv_eq ax Tx), (ccv_eq ay Ty) by auto. rewrite vel_hom by auto.
  change (par ax i) with (par ab i). change (par ay i) with (par ab i).
  change (sub_at ax i) with (sub_at ab i). change (tpv ax) with (tpv ab). change (ab_dq ax) with x.
  change (sub_at ay i) with (sub_at ab i). change (tpv ay) with (tpv ab). change (ab_dq ay) with y.
  destruct (par ab i) as [p|] eqn:P; [|rewrite mscale_zero_r; auto].
  assert (Hp : (p < i)%nat) by (apply (par_lt ab T i p); auto). rewrite IH by lia. rewrite Hy by auto.
  rewrite mact_scale, mscale_add_r, mcross_scale_l, <- (mscale_mul t (qk x i)), (mcross_scale_r t), (mscale_mul t t). auto.
Qed.
Lemma Cv_hom i : (i < n)%nat -> Cv ay i = t * t * Cv ax i.
Proof.
  intros Hi. unfold Cv. change (back ay) with (back ab). change (back ax) with (back ab). rewrite <- (back_fscale ab T R) by auto.
  apply (back_ext ab T R); auto. intros k Hk. unfold ccf0. change (inertia_at ay k) with (inertia_at ab k). change (inertia_at ax k) with (inertia_at ab k).
  rewrite cc_hom, vel_hom by auto. rewrite !imul_scale, fcross_scale_l, fcross_scale_r, fscale_add_r. f_equal. 
  generalize (fcross (velv ax k) (imul (inertia_at ab k) (velv ax k))). intros f. vring.
Qed.
End Homogeneous.

Section Api.
Context {S : Scal} {L : ScalLaws S} {PL : PosLaws S} {ES : EqSound S}.
Add Field kf3 : (@kfield S L).
Local Open Scope k_scope.
Variable solve : list (list K) -> list K -> list K.
Variable pinv : list (list K) -> K -> list (list K) * bool.

Lemma veqb_sound (a b : list K) : veqb a b = true -> a = b.
Proof.
  revert b. induction a; destruct b; cbn; try discriminate; auto. intros H. apply andb_true_iff in H. destruct H as [H1 H2].
  apply keq_sound in H1. apply IHa in H2. congruence.
Qed.
Lemma set_dq_with ab y ab' : tree_ok ab -> set_dq y ab = Ret ab' tt -> List.length y = ab_dof ab /\ exists c, ab' = with_dq ab c y.
Proof.
  intros T E. unfold set_dq in E. destruct (Nat.eqb_spec (List.length y) (ab_dof ab)) as [Hl|]; [|discriminate]. cbn in E.
  destruct (negb _); [discriminate|]. split; auto. destruct (tk_cache _ T) as [c C]. destruct (veqb _ _) eqn:V; inversion E; subst.
  - apply veqb_sound in V. subst. exists c. destruct ab'; cbn in *. rewrite C. reflexivity.
  - rewrite C. eexists. reflexivity.
Qed.
Lemma set_dq_ok ab x : tree_ok ab -> List.length x = ab_dof ab -> exists ab', set_dq x ab = Ret ab' tt.
Proof.
  intros T Hx. unfold set_dq. rewrite Hx, (tk_dq _ T), Nat.eqb_refl. cbn [negb]. destruct (veqb _ _); eexists; reflexivity.
Qed.
Lemma proper_with ab c y : proper ab -> proper (with_dq ab c y).
Proof. intros []. constructor; auto. Qed.
Lemma out_VelD ab ddq fe o : tree_ok ab -> wfc ab -> List.length ddq = ab_dof ab ->
  exists D, outcome (q_VelocityDerivative ddq fe o ab) = Ok (mat (ab_dof ab) (ab_dof ab) D) /\
    if o_cc o then exists dv da df, dv_eq ab dv /\ da_eq ab dv da /\ df_eq ab dv da df /\ forall i j, (i < ab_dof ab)%nat -> D i j = back ab (fun i => df i j) i
    else forall i j, D i j = 0.
Proof.
  intros T (c & E & V) Hl. unfold q_VelocityDerivative. rewrite Hl, Nat.eqb_refl.
  exists (snd (velocity_derivative ab ddq fe o c)). destruct (o_cc o) eqn:Ho; rewrite outcome_on_cache, E.
  - split; [destruct (velocity_derivative ab ddq fe o c); reflexivity|]. apply vd_value; auto.
  - split; [destruct (velocity_derivative ab ddq fe o c); reflexivity|]. unfold velocity_derivative. rewrite Ho. reflexivity.
Qed.
Lemma c40_core h ab ddq fe o : reached solve pinv h ab -> base_fixed false h = true -> proper ab -> o_fric o = false ->
  List.length ddq = ab_dof ab ->
  exists D tau, outcome (ask solve pinv (QVelD ddq fe o) ab) = Ok (AMat D) /\ square (ab_dof ab) D /\
    outcome (ask solve pinv (QID ddq fe o) ab) = Ok (AVec tau) /\
    forall x y ab1 ab2, (forall i, (i < ab_dof ab)%nat -> coef y i = coef (ab_dq ab) i + coef x i) ->
      set_dq y ab = Ret ab1 tt -> set_dq x ab = Ret ab2 tt ->
      outcome (ask solve pinv (QID ddq fe o) ab1) = Ok (AVec (vec (ab_dof ab) (fun i => coef tau i + row_times (ab_dof ab) D x i + (if o_cc o then Cv ab2 i else 0)))) /\
      outcome (ask solve pinv QCC ab2) = Ok (AVec (vec (ab_dof ab) (Cv ab2))).
Proof.
  intros R0 B P Ho Hl. assert (AC : AddComm S) by apply laws_comm. destruct (reached_wfc _ _ _ _ R0 B) as [T W].
  destruct (out_VelD ab ddq fe o T W Hl) as (D & ED & HD). pose proof (pr_rigid _ P) as R.
  cbn [ask]. rewrite !outcome_wrap, ED, (out_ID ab T W) by auto. rewrite Hl, Nat.eqb_refl. cbn [bind]. do 2 eexists. split; [reflexivity|].
  split; [apply square_mat|]. split; [reflexivity|]. intros x y ab1 ab2 Hy E1 E2.
  pose proof (inv_set_dq _ _ _ W E1) as W1. pose proof (inv_set_dq _ _ _ W E2) as W2.
  destruct (set_dq_with _ _ _ T E1) as (L1 & c1 & ->). destruct (set_dq_with _ _ _ T E2) as (L2 & c2 & ->).
  pose proof (with_tree ab c1 y T L1) as T1. pose proof (with_tree ab c2 x T L2) as T2.
  cbn [ask]. rewrite !outcome_wrap, (out_ID _ T1 W1), (out_CC _ T2 W2) by (apply proper_with; auto).
  change (ab_dof (with_dq ab c1 y)) with (ab_dof ab). rewrite Hl, Nat.eqb_refl. cbn [bind]. split; [|reflexivity].
  do 2 f_equal. apply vec_ext. intros i Hi. unfold plus_friction. rewrite Ho. rewrite coef_vec by auto. unfold id_base.
  change (Av (with_dq ab c1 y)) with (Av ab). change (Gv (with_dq ab c1 y)) with (Gv ab). change (Extv (with_dq ab c1 y)) with (Extv ab).
  change (ab_dof (with_dq ab c1 y)) with (ab_dof ab). unfold row_times. rewrite total_ksum.
  rewrite (ksum_ext _ _ (fun j => D i j * coef x j)) by (intros; rewrite entry_mat; auto).
  destruct (o_cc o).
  - destruct HD as (dv & da & df & EV & EA & EF & HD).
    rewrite (Cv_sum ab T R c2 c1 x y Hy L2 L1 dv da df EV EA EF i) by auto.
    rewrite (ksum_ext _ (fun j => D i j * coef x j) (fun j => qk x j * back ab (fun k => df k j) i)) by (intros; rewrite HD by auto; unfold qk, coef; ring).
    ring.
  - rewrite (ksum_zero _ (fun j => D i j * coef x j)) by (intros; rewrite HD; ring). ring.
Qed.
Lemma c40 h ab ddq fe o x y ab1 ab2 : reached solve pinv h ab -> base_fixed false h = true -> proper ab -> o_fric o = false ->
  List.length ddq = ab_dof ab -> (forall i, (i < ab_dof ab)%nat -> coef y i = coef (ab_dq ab) i + coef x i) ->
  set_dq y ab = Ret ab1 tt -> set_dq x ab = Ret ab2 tt ->
  exists D tau tau1 C, outcome (ask solve pinv (QVelD ddq fe o) ab) = Ok (AMat D) /\ square (ab_dof ab) D /\
    outcome (ask solve pinv (QID ddq fe o) ab) = Ok (AVec tau) /\ outcome (ask solve pinv (QID ddq fe o) ab1) = Ok (AVec tau1) /\
    outcome (ask solve pinv QCC ab2) = Ok (AVec C) /\ List.length tau1 = ab_dof ab /\
    forall i, (i < ab_dof ab)%nat -> coef tau1 i = coef tau i + row_times (ab_dof ab) D x i + (if o_cc o then coef C i else 0).
Proof.
  intros R0 B P Ho Hl Hy E1 E2. destruct (c40_core h ab ddq fe o R0 B P Ho Hl) as (D & tau & H1 & H2 & H3 & H4).
  destruct (H4 x y ab1 ab2 Hy E1 E2) as (H5 & H6). exists D, tau. do 2 eexists. do 3 (split; [eassumption|]). split; [exact H5|]. split; [exact H6|].
  split; [apply vec_length|]. intros i Hi. rewrite !coef_vec by auto. auto.
Qed.
(** One coordinate at a time. *)
Lemma c40_column h ab ddq fe o j : reached solve pinv h ab -> base_fixed false h = true -> proper ab -> o_fric o = false ->
  List.length ddq = ab_dof ab -> (j < ab_dof ab)%nat ->
  exists D tau r, outcome (ask solve pinv (QVelD ddq fe o) ab) = Ok (AMat D) /\ outcome (ask solve pinv (QID ddq fe o) ab) = Ok (AVec tau) /\
    forall t ab1, set_dq (vec (ab_dof ab) (fun i => if Nat.eqb i j then coef (ab_dq ab) i + t else coef (ab_dq ab) i)) ab = Ret ab1 tt ->
      exists tau1, outcome (ask solve pinv (QID ddq fe o) ab1) = Ok (AVec tau1) /\
        forall i, (i < ab_dof ab)%nat -> coef tau1 i = coef tau i + t * entry D i j + t * t * coef r i.
Proof.
  intros R0 B P Ho Hl Hj. destruct (c40_core h ab ddq fe o R0 B P Ho Hl) as (D & tau & H1 & H2 & H3 & H4).
  assert (AC : AddComm S) by apply laws_comm. destruct (reached_wfc _ _ _ _ R0 B) as [T W].
  assert (EX : forall x, List.length x = ab_dof ab -> exists c, set_dq x ab = Ret (with_dq ab c x) tt).
  { intros x Hx. destruct (tk_cache _ T) as [c C]. unfold set_dq. rewrite Hx, (tk_dq _ T), Nat.eqb_refl. cbn [negb].
    destruct (veqb _ _) eqn:V; [|rewrite C; eexists; reflexivity]. apply veqb_sound in V. subst x. exists c. destruct ab; cbn in *. subst. reflexivity. }
  set (e := vec (ab_dof ab) (fun i => if Nat.eqb i j then 1 else 0)). destruct (EX e) as (ce & Ee); [apply vec_length|].
  exists D, tau, (if o_cc o then vec (ab_dof ab) (Cv (with_dq ab ce e)) else []). split; [auto|]. split; [auto|]. intros t ab1 E1.
  set (x := vec (ab_dof ab) (fun i => if Nat.eqb i j then t else 0)). destruct (EX x) as (cx & Ex); [apply vec_length|].
  destruct (fun H => H4 x _ _ _ H E1 Ex) as (H5 & H6).
  { intros i Hi. unfold x. rewrite !coef_vec by auto. destruct (Nat.eqb i j); [reflexivity|ring]. }
  eexists. split; [exact H5|]. intros i Hi. rewrite coef_vec by auto. f_equal; [f_equal|].
  - unfold row_times. rewrite total_ksum. rewrite (ksum_ext _ _ (fun k => if Nat.eqb k j then t * entry D i k else 0)).
    + apply (ksum_single (ab_dof ab) j (fun k => t * entry D i k)); auto.
    + intros k Hk. unfold x. rewrite coef_vec by auto. destruct (Nat.eqb k j); ring.
  - destruct (o_cc o).
    + rewrite coef_vec by auto. apply (Cv_hom ab T (pr_rigid _ P)); auto; try (apply vec_length).
      intros k Hk. unfold x, e. rewrite !qk_vec by auto. destruct (Nat.eqb k j); ring.
    + unfold coef. destruct i; cbn; ring.
Qed.
End Api.
