(** Dynamics: inertia matrix, gravity, external forces, inverse and forward dynamics. *)
From Coq Require Import List Arith ZArith Bool Lia Ring Field.
From Verif Require Import Scalar Base Spatial SpecGeo Joint Body Kin InvDyn FwdDyn Opspace OpspaceAba Deriv Sim Ops Specs SpecCache SpecKin SpecDyn SpatialProofs TreeProofs CacheProofs CacheOps JointProofs BigSum KinProofs WorldProofs.
Import ListNotations.

Section Rnea.
Context {S : Scal}.
Local Open Scope k_scope.
Variable ab : body.
Hypothesis T : tree_ok ab.
Let n := ab_dof ab.

(** ** The recursive Newton-Euler pass, without laws *)
Definition accv (o : id_opts) (ddq : list K) : arr motion :=
  tval ab
    (fun i => let a1 := if o_grav o then msub (mscale (qk ddq i) (sub_at ab i)) (mact (iso_inv (twv ab i)) (ab_g ab))
                        else mscale (qk ddq i) (sub_at ab i) in
              if o_cc o then madd a1 (mcross (velv ab i) (mscale (qk (ab_dq ab) i) (sub_at ab i))) else a1)
    (fun i a => if o_cc o then madd (mscale (qk ddq i) (sub_at ab i))
                                    (madd (mact (iso_inv (tpv ab i)) a) (mcross (velv ab i) (mscale (qk (ab_dq ab) i) (sub_at ab i))))
                else madd (mscale (qk ddq i) (sub_at ab i)) (mact (iso_inv (tpv ab i)) a)).
Lemma accv_eq o ddq i : (i < n)%nat -> accv o ddq i = match par ab i with
  | None => let a1 := if o_grav o then msub (mscale (qk ddq i) (sub_at ab i)) (mact (iso_inv (twv ab i)) (ab_g ab))
                        else mscale (qk ddq i) (sub_at ab i) in
              if o_cc o then madd a1 (mcross (velv ab i) (mscale (qk (ab_dq ab) i) (sub_at ab i))) else a1
  | Some p => if o_cc o then madd (mscale (qk ddq i) (sub_at ab i))
                                    (madd (mact (iso_inv (tpv ab i)) (accv o ddq p)) (mcross (velv ab i) (mscale (qk (ab_dq ab) i) (sub_at ab i))))
                else madd (mscale (qk ddq i) (sub_at ab i)) (mact (iso_inv (tpv ab i)) (accv o ddq p))
  end.
Proof. intros Hi. unfold accv at 1. rewrite tval_eq by auto. reflexivity. Qed.
Definition idf0 (o : id_opts) (ddq : list K) (fe : fmap) (i : nat) : force :=
  let fi := if o_cc o then fadd (imul (inertia_at ab i) (accv o ddq i)) (fcross (velv ab i) (imul (inertia_at ab i) (velv ab i)))
            else imul (inertia_at ab i) (accv o ddq i) in
  match fe i with None => fi | Some x => fsub fi (fact (iso_inv (twv ab i)) x) end.

Lemma id_loop Tp Tw velc o ddq fe v a f : tp_ok ab Tp -> (velc = true -> forall i, (i < n)%nat -> v i = velv ab i) ->
  (forall i, (i < n)%nat -> (o_grav o = true /\ par ab i = None) \/ (exists x, fe i = Some x) -> Tw i = twv ab i) ->
  forall i, (i < n)%nat -> snd (for_up n (id_fwd_step ab Tp Tw velc o ddq fe) (v, a, f)) i = idf0 o ddq fe i.
Proof.
  intros HT Hv HW.
  assert (X : (fun m (s : arr motion * arr motion * arr force) => (velc = true -> fst (fst s) = v) /\
     (forall i, (i < m)%nat -> (o_cc o = true -> fst (fst s) i = velv ab i) /\ snd (fst s) i = accv o ddq i /\ snd s i = idf0 o ddq fe i)) n
     (for_up n (id_fwd_step ab Tp Tw velc o ddq fe) (v, a, f))).
  { apply for_up_ind.
    - split; auto; lia.
    - intros i [[v1 a1] f1] Hi [Hvc IH]. cbn [fst snd] in *. unfold id_fwd_step.
      set (v2 := if negb velc && o_cc o then upd v1 i (vel_at ab Tp v1 (qk (ab_dq ab) i) i) else v1).
      assert (V2 : o_cc o = true -> forall j, (j < Datatypes.S i)%nat -> v2 j = velv ab j).
      { intros Ho j Hj. unfold v2. rewrite Ho, andb_true_r. destruct velc; cbn.
        - rewrite Hvc by auto. apply Hv; auto; lia.
        - apply upd_lt with (b := velv ab); auto; [intros; apply IH; auto|]. apply vel_at_cong; auto. intros; apply IH; auto. }
      set (ai := match par ab i with None => _ | Some _ => _ end).
      assert (AI : ai = accv o ddq i).
      { unfold ai. rewrite accv_eq by auto. destruct (par ab i) as [p|] eqn:P.
        - rewrite (HT i p) by auto. destruct (IH p) as (_ & -> & _); [apply (par_lt ab T); auto|].
          destruct (o_cc o) eqn:Ho; auto. rewrite V2 by auto. auto.
        - destruct (o_grav o) eqn:Hg; [rewrite (HW i) by auto|]; destruct (o_cc o) eqn:Ho; auto; rewrite V2 by auto; auto. }
      cbn [fst snd]. split; [intros E; unfold v2; rewrite E; cbn; auto|].
      intros j Hj. split; [auto|]. split.
      + apply upd_lt with (b := accv o ddq); auto. intros; apply IH; auto.
      + apply upd_lt with (b := idf0 o ddq fe); auto; [intros; apply IH; auto|]. unfold idf0. rewrite AI.
        destruct (o_cc o) eqn:Ho; [rewrite V2 by auto|]; destruct (fe i) eqn:Ef; auto; rewrite HW; eauto. }
  intros i Hi. apply X. auto.
Qed.
Lemma has_root_ok i : (i < n)%nat -> par ab i = None -> has_root ab = true.
Proof.
  intros Hi P. apply existsb_exists. exists i. split; [apply in_seq; cbn; fold n; lia|]. rewrite P. reflexivity.
Qed.
Lemma ensure_Tw_keep c i : is_Tw (ca_T c) = true -> c_Tw (ca_T (if has_child ab then ensure_Tp ab c else c)) i = c_Tw (ca_T c) i.
Proof. intros _. destruct (has_child ab); auto. apply ensure_Tp_Tw. Qed.

(** Either path, from a coherent cache. *)
Definition plus_friction (o : id_opts) (tau : arr K) : arr K :=
  if o_fric o then fun i => tau i + friction_arr ab tau true (o_stic o) i else tau.
Lemma plus_friction_cong o (t t' : arr K) (j : nat) : t j = t' j -> plus_friction o t j = plus_friction o t' j.
Proof. intros E. unfold plus_friction. destruct (o_fric o); auto. unfold friction_arr. rewrite E. auto. Qed.
Lemma id_value ddq fe o c : inv ab c -> forall i, (i < n)%nat -> 
  snd (inverse_dynamics ab ddq fe o c) i =
  plus_friction o (if is_crba (ca_crba c) && (negb (o_cc o) || is_cc (ca_cc c)) && (negb (o_grav o) || is_grav (ca_grav c)) then
     fun i => let t := mat_vec n (Av ab) (qk ddq) i + Extv ab fe i in
              let t := if o_cc o then t + Cv ab i else t in if o_grav o then t + Gv ab i else t
   else back ab (idf0 o ddq fe)) i.
Proof.
  intros H i Hi. unfold inverse_dynamics. fold n.
  destruct (is_crba (ca_crba c) && _ && _) eqn:E.
  - apply andb_true_iff in E. destruct E as [E Eg]. apply andb_true_iff in E. destruct E as [Ea Ec].
    destruct (ext_torques_inv ab T fe c H) as (H1 & X & t & g & E1 & E2 & E3). destruct (ext_torques ab fe c) as [c1 ext]. cbn [fst snd] in *.
    subst c1. cbn [ca_cc ca_grav ca_crba with_grav with_T c_G] in *.
    match goal with |- (if o_fric o then fun i => ?t i + friction_arr ab ?t true _ i else ?t) i = _ => change (plus_friction o t i = plus_friction o (fun i => let t0 := mat_vec n (Av ab) (qk ddq) i + Extv ab fe i in let t1 := if o_cc o then t0 + Cv ab i else t0 in if o_grav o then t1 + Gv ab i else t1) i) end.
    apply plus_friction_cong. cbn zeta.
    assert (MV : mat_vec n (c_A (ca_crba c)) (qk ddq) i = mat_vec n (Av ab) (qk ddq) i).
    { unfold mat_vec. clear -H Ea Hi. assert (G : forall m, (m <= n)%nat -> ksum m (fun j => c_A (ca_crba c) i j * qk ddq j) = ksum m (fun j => Av ab i j * qk ddq j)); [|apply G; auto].
      induction m as [|m IH]; cbn; auto. intros Hm. rewrite IH by lia. do 2 f_equal. apply (i_crba _ _ H Ea); auto; unfold n in *; lia. }
    assert (CE : o_cc o = true -> c_C (ca_cc c) i = Cv ab i).
    { intros Ho. rewrite Ho in Ec. cbn in Ec. apply (i_cc _ _ H Ec); auto. }
    assert (GE : o_grav o = true -> c_G g i = Gv ab i).
    { intros Ho. rewrite Ho in Eg. cbn in Eg. rewrite E3. apply (i_grav _ _ H Eg); auto. }
    destruct (o_cc o), (o_grav o); rewrite ?MV, ?X, ?CE, ?GE by auto; auto.
  - set (c1 := if _ || _ then ensure_Tw ab c else c).
    assert (H1 : inv ab c1) by (unfold c1; destruct (o_grav o && has_root ab || has_ext ab fe); auto; apply ensure_Tw_inv; auto).
    destruct (has_child_ok ab c1 H1) as (H2 & HT & _). cbn in *.
    set (c2 := if has_child ab then ensure_Tp ab c1 else c1) in *.
    assert (W2 : forall j, (j < n)%nat -> (o_grav o = true /\ par ab j = None) \/ (exists x, fe j = Some x) -> c_Tw (ca_T c2) j = twv ab j).
    { intros j Hj Hc. replace (c_Tw (ca_T c2) j) with (c_Tw (ca_T c1) j) by (unfold c2; destruct (has_child ab); auto; symmetry; apply ensure_Tp_Tw).
      unfold c1. replace (o_grav o && has_root ab || has_ext ab fe) with true; [apply ensure_Tw_at; auto|]. symmetry.
      destruct Hc as [[Hg P]|[x Hx]]; [rewrite Hg, (has_root_ok j) by auto; auto|]. rewrite (has_ext_ok ab fe j x) by auto. apply orb_true_r. }
    pose proof (id_loop (c_Tp (ca_T c2)) (c_Tw (ca_T c2)) (is_vel (ca_vel c2)) o ddq fe (c_v (ca_vel c2)) (c_a (ca_rnea c2)) (c_f (ca_rnea c2)) HT (i_vel _ _ H2) W2) as X.
    fold n. destruct (for_up n _ _) as [[v a] f]. cbn [snd] in X.
    pose proof (back_at ab T (c_Tp (ca_T c2)) f (fun _ => 0) (idf0 o ddq fe) HT X) as Y. fold n in Y.
    destruct (for_down n _ _) as [tau f']. cbn [fst snd] in *.
    change (plus_friction o tau i = plus_friction o (back ab (idf0 o ddq fe)) i). apply plus_friction_cong. auto.
Qed.
End Rnea.

Section Dyn.
Context {S : Scal} {L : ScalLaws S}.
Add Field kf : (@kfield S L).
Local Open Scope k_scope.

Lemma total_ksum n f : total (map f (seq 0 n)) = ksum n f.
Proof.
  assert (A : forall l x, total (l ++ [x]) = total l + x) by (unfold total; induction l; intros; cbn; [ring|rewrite IHl; ring]).
  induction n; [reflexivity|]. rewrite seq_S, map_app. cbn [map]. rewrite A, IHn. reflexivity.
Qed.
Lemma total_ext {A} (f g : A -> K) l : (forall x, In x l -> f x = g x) -> total (map f l) = total (map g l).
Proof. intros H. f_equal. apply map_ext_in; auto. Qed.

Section Robot.
Variable ab : body.
Hypothesis T : tree_ok ab.
Hypothesis R : rigid_robot ab.
Let n := ab_dof ab.

(** ** Decomposition of inverse dynamics *)
Lemma acc_world o ddq i : (i < n)%nat ->
  mact (twv ab i) (accv ab o ddq i) =
  madd (msum n (fun j => if ancb ab j i then mscale (qk ddq j) (Sw ab j) else mzero))
       (madd (if o_cc o then mact (twv ab i) (ccv ab i) else mzero) (if o_grav o then mopp (ab_g ab) else mzero)).
Proof.
  intros Hi. unfold msum, n.
  rewrite <- (path_sum ab T madd mzero madd_comm madd_assoc madd_zero_l
    (fun i => mact (twv ab i) (tval ab (fun i => mscale (qk ddq i) (sub_at ab i)) (fun i v => madd (mscale (qk ddq i) (sub_at ab i)) (mact (iso_inv (tpv ab i)) v)) i))
    (fun j => mscale (qk ddq j) (Sw ab j))) ; auto.
  2:{ clear i Hi. intros i Hi. rewrite tval_eq by auto. destruct (par ab i) as [p|] eqn:E; [|apply mact_scale].
      rewrite mact_add, mact_scale. f_equal. apply tw_parent; auto. }
  induction i as [i IH] using lt_wf_ind.
  rewrite (accv_eq ab T), tval_eq by auto. rewrite (ccv_eq ab T) by auto. cbn zeta. destruct (par ab i) as [p|] eqn:E.
  - pose proof (tree_par _ _ _ T Hi E) as Hp. specialize (IH p Hp ltac:(lia)).
    set (B := tval ab (fun i => mscale (qk ddq i) (sub_at ab i)) _ p) in *.
    destruct (o_cc o).
    + rewrite !mact_add, !(tw_parent ab T R i p), IH by auto. rewrite <- !madd_assoc. do 3 f_equal. apply madd_comm.
    + rewrite !mact_add, !(tw_parent ab T R i p), IH by auto. rewrite !madd_assoc. auto.
  - assert (V : mcross (velv ab i) (mscale (qk (ab_dq ab) i) (sub_at ab i)) = mzero).
    { rewrite (velv_eq ab T) by auto. unfold vel_at. rewrite E. apply mcross_self. }
    rewrite V. assert (G : forall x, mact (twv ab i) (msub x (mact (iso_inv (twv ab i)) (ab_g ab))) = madd (mact (twv ab i) x) (mopp (ab_g ab))).
    { intros x. rewrite mact_sub, msub_opp, mact_inv_r by (apply twv_rigid; auto). auto. }
    destruct (o_cc o), (o_grav o); rewrite ?madd_zero_r, ?G, ?mact_zero, ?madd_zero_l, ?madd_zero_r; auto.
Qed.
Lemma idf0_world o ddq fe i : (i < n)%nat ->
  fact (twv ab i) (idf0 ab o ddq fe i) =
  fadd (imul (Iw ab i) (msum n (fun j => if ancb ab j i then mscale (qk ddq j) (Sw ab j) else mzero)))
   (fadd (if o_cc o then fact (twv ab i) (ccf0 ab i) else fzero)
     (fadd (if o_grav o then fact (twv ab i) (grav_f0 ab (twv ab) i) else fzero)
       (fact (twv ab i) (ext_f0 ab (twv ab) fe i)))).
Proof.
  intros Hi. assert (Rw : rigid (twv ab i)) by (apply twv_rigid; auto).
  assert (IA : fact (twv ab i) (imul (inertia_at ab i) (accv ab o ddq i)) =
    fadd (imul (Iw ab i) (msum n (fun j => if ancb ab j i then mscale (qk ddq j) (Sw ab j) else mzero)))
     (fadd (if o_cc o then fact (twv ab i) (imul (inertia_at ab i) (ccv ab i)) else fzero)
        (if o_grav o then fact (twv ab i) (grav_f0 ab (twv ab) i) else fzero))).
  { rewrite <- imul_act by auto. rewrite acc_world by auto. rewrite imul_add, imul_add. do 2 f_equal.
    - destruct (o_cc o); [|apply imul_zero]. apply imul_act; auto.
    - destruct (o_grav o); [|apply imul_zero]. unfold grav_f0. rewrite <- imul_act by auto. rewrite mact_inv_r; auto. }
  unfold idf0, ext_f0, ccf0.
  assert (EX : forall f, fact (twv ab i) (match fe i with None => f | Some x => fsub f (fact (iso_inv (twv ab i)) x) end) =
    fadd (fact (twv ab i) f) (fact (twv ab i) match fe i with Some x => fact (iso_inv (twv ab i)) (fopp x) | None => fzero end)).
  { intros f. destruct (fe i); [|rewrite fact_zero, fadd_zero_r; auto]. rewrite fact_sub, fsub_opp, fact_inv_r, fact_inv_r by auto. auto. }
  rewrite EX. rewrite !fadd_assoc. f_equal. destruct (o_cc o).
  - rewrite fact_add, IA, fact_add. rewrite <- !fadd_assoc. f_equal. f_equal. apply fadd_comm.
  - rewrite IA. rewrite <- !fadd_assoc. auto.
Qed.
Lemma back_add f g i : (i < n)%nat -> back ab (fun k => fadd (f k) (g k)) i = back ab f i + back ab g i.
Proof.
  intros Hi. rewrite !back_world, <- ksum_add by auto. apply ksum_ext. intros k Hk. destruct (ancb ab i k); [|ring].
  rewrite fact_add, mdot_add_r. auto.
Qed.
Lemma back_zero i : (i < n)%nat -> back ab (fun _ => fzero) i = 0.
Proof.
  intros Hi. rewrite back_world by auto. apply ksum_zero. intros k Hk. destruct (ancb ab i k); auto. rewrite fact_zero, mdot_zero_r. auto.
Qed.
Lemma back_ext f g i : (forall k, (k < n)%nat -> f k = g k) -> (i < n)%nat -> back ab f i = back ab g i.
Proof. intros E Hi. rewrite !back_world by auto. apply ksum_ext. intros k Hk. rewrite E; auto. Qed.

Section Mass.
Context {PL : PosLaws S}.
Hypothesis mass_pos : forall i, (i < n)%nat -> klt 0 (imass (inertia_at ab i)) = true.
Hypothesis sym : forall i, (i < n)%nat -> isym (inertia_at ab i).

Definition id_base (o : id_opts) (ddq : list K) (fe : fmap) (i : nat) : K :=
  mat_vec n (Av ab) (qk ddq) i + (if o_cc o then Cv ab i else 0) + (if o_grav o then Gv ab i else 0) + Extv ab fe i.
Lemma id_decomp o ddq fe i : (i < n)%nat -> back ab (idf0 ab o ddq fe) i = id_base o ddq fe i.
Proof.
  intros Hi. unfold id_base, mat_vec, Cv, Gv, Extv. rewrite !back_world by auto.
  rewrite (ksum_ext n _ (fun k => (if ancb ab i k then mdot (Sw ab i) (imul (Iw ab k) (msum n (fun j => if ancb ab j k then mscale (qk ddq j) (Sw ab j) else mzero))) else 0) +
     ((if o_cc o then if ancb ab i k then mdot (Sw ab i) (fact (twv ab k) (ccf0 ab k)) else 0 else 0) +
      ((if o_grav o then if ancb ab i k then mdot (Sw ab i) (fact (twv ab k) (grav_f0 ab (twv ab) k)) else 0 else 0) +
       (if ancb ab i k then mdot (Sw ab i) (fact (twv ab k) (ext_f0 ab (twv ab) fe k)) else 0))))).
  2:{ intros k Hk. destruct (ancb ab i k); [|destruct (o_cc o), (o_grav o); ring].
      rewrite idf0_world by auto. rewrite !mdot_add_r. destruct (o_cc o), (o_grav o); rewrite ?mdot_zero_r; auto. }
  rewrite !ksum_add.
  assert (Z : forall (b : bool) f, ksum n (fun k => if b then f k else 0) = if b then ksum n f else 0).
  { intros b f. destruct b; auto. apply ksum_zero; auto. }
  rewrite !Z.
  assert (M : ksum n (fun k => if ancb ab i k then mdot (Sw ab i) (imul (Iw ab k) (msum n (fun j => if ancb ab j k then mscale (qk ddq j) (Sw ab j) else mzero))) else 0) =
              ksum n (fun j => Av ab i j * qk ddq j)).
  { rewrite (ksum_ext n (fun j => Av ab i j * qk ddq j) (fun j => ksum n (fun k => (if ancb ab i k && ancb ab j k then mdot (Sw ab i) (imul (Iw ab k) (Sw ab j)) else 0) * qk ddq j))).
    2:{ intros j Hj. rewrite A_world by auto. symmetry. apply ksum_scale_r. }
    rewrite ksum_swap. apply ksum_ext. intros k Hk. destruct (ancb ab i k); cbn [andb].
    - rewrite imul_msum, mdot_fsum. apply ksum_ext. intros j Hj. destruct (ancb ab j k).
      + rewrite imul_scale, mdot_scale_r. ring.
      + rewrite imul_zero, mdot_zero_r. ring.
    - symmetry. apply ksum_zero. intros; ring. }
  rewrite M. fold n. ring.
Qed.
Lemma id_value_eq ddq fe o c i : inv ab c -> (i < n)%nat ->
  snd (inverse_dynamics ab ddq fe o c) i = plus_friction ab o (id_base o ddq fe) i.
Proof.
  intros H Hi. rewrite id_value by auto.
  apply plus_friction_cong.
  match goal with |- context [if is_crba ?a && ?b && ?c then _ else _] => destruct (is_crba a && b && c) end; [|apply id_decomp; auto].
  cbn zeta. unfold id_base. fold n. destruct (o_cc o), (o_grav o); ring.
Qed.
End Mass.
End Robot.
End Dyn.
