(** The variational integrator follows the two-step recurrence (C48). *)
From Coq Require Import List Arith ZArith Bool Lia Field.
From Verif Require Import Scalar Base Spatial Joint Body Kin InvDyn FwdDyn Opspace OpspaceAba Deriv Sim Ops Discrete Specs SpecCache SpecDyn SpecDiscrete TreeProofs CacheProofs CacheOps OpsCache DynProofs DynApi DiscreteCache DiscreteProofs.
Import ListNotations.

Section Travel.
Context {S : Scal} {L : ScalLaws S} {ES : EqSound S}.
Add Field kf : (@kfield S L).
Variable solve : list (list K) -> list K -> list K.
Variable pinv : list (list K) -> K -> list (list K) * bool.
Variable log6 : iso -> motion.
Variable dlog6 : iso -> i6.
Variable norm : list K -> K.
Local Open Scope k_scope.
Local Notation ready := (ready log6 dlog6).
Local Notation DID := (q_DiscreteID log6 dlog6).
Local Notation dreached := (dreached solve pinv log6 dlog6 norm).

Lemma apart (x : K) : told_apart x.
Proof. intros y. apply keq_sound. Qed.
Lemma dts_all h : dts_ok h.
Proof. induction h as [|o h IH]; cbn; auto. destruct o; auto. split; auto. apply apart. Qed.
Lemma list_eq_vec (l : list K) n : List.length l = n -> l = vec n (fun i => qk l i).
Proof.
  intros <-. apply nth_ext with (d := 0) (d' := 0); [rewrite vec_length; auto|].
  intros i Hi. rewrite nth_vec by auto. reflexivity.
Qed.
Lemma tree_restart ab dq mem : tree_ok ab -> List.length dq = ab_dof ab -> tree_ok (restart ab (ab_q ab) dq mem).
Proof. intros T H. apply (tree_same ab); auto; cbn; [apply T|eauto]. Qed.
Lemma vmap2_length n f (a b : list K) : List.length (vmap2 n f a b) = n.
Proof. apply vec_length. Qed.
Lemma vmap2_vec n f (a b : list K) : vmap2 n f a b = vec n (fun i => f (qk a i) (qk b i)).
Proof. reflexivity. Qed.

Definition from (dt : K) (mem : cache) (n : nat) (p : list K) (a : body) : body :=
  restart a (ab_q a) (vmap2 n (fun x y => (x - y) / dt) (ab_q a) p) mem.
Lemma from_prevq dt mem p a : tree_ok a -> dt <> 0 -> List.length p = ab_dof a ->
  prevq (from dt mem (ab_dof a) p a) dt (ca_dr (all_clear mem)) = p.
Proof.
  intros T Hd Hp. unfold prevq. cbn. eapply eq_trans; [|symmetry; apply (list_eq_vec p (ab_dof a) Hp)]. apply vec_ext. intros i Hi.
  rewrite vmap2_vec. unfold qk. rewrite nth_vec by auto. field. auto.
Qed.
Lemma did_from dt qp ab mem qn fe grav : dt <> 0 -> List.length qp = ab_dof ab -> ready dt qp ab ->
  outcome (DID qn dt fe grav ab) = outcome (DID qn dt fe grav (from dt mem (ab_dof ab) qp ab)).
Proof.
  intros Hd Hp (T & c & Ec & V & D & Q).
  rewrite (did_out log6 dlog6 qn dt fe grav ab c) by (auto; apply apart). rewrite Q.
  rewrite (did_out log6 dlog6 qn dt fe grav (from dt mem (ab_dof ab) qp ab) (all_clear mem));
    [|apply apart|apply tree_restart; [auto|apply vmap2_length]|reflexivity|apply inv_all_clear|apply dri_clear].
  rewrite from_prevq by auto. reflexivity.
Qed.
Lemma did_from_val dt qp ab mem qn fe grav : dt <> 0 -> List.length qp = ab_dof ab -> tree_ok ab -> List.length qn = ab_dof ab ->
  outcome (DID qn dt fe grav (from dt mem (ab_dof ab) qp ab)) = Ok (vec (ab_dof ab) (dval log6 dlog6 ab qp qn dt fe grav)).
Proof.
  intros Hd Hp T Hn.
  rewrite (did_out log6 dlog6 qn dt fe grav (from dt mem (ab_dof ab) qp ab) (all_clear mem));
    [|apply apart|apply tree_restart; [auto|apply vmap2_length]|reflexivity|apply inv_all_clear|apply dri_clear].
  rewrite from_prevq by auto. cbn [ab_dof from restart]. rewrite Hn, Nat.ltb_irrefl. reflexivity.
Qed.

Lemma ready_ask q dt qp ab ab' x : ready dt qp ab -> ask solve pinv q ab = Ok (ab', x) ->
  ready dt qp ab' /\ exists c, ab' = set_cache ab (Some c).
Proof.
  intros (T & c & Ec & V & D & Q) E. destruct (ask_frame solve pinv q ab ab' x E) as [c' X].
  destruct (ask_dr solve pinv q ab ab' x E c Ec) as (c1 & E1 & E2).
  destruct (ask_inv solve pinv (AC := laws_comm) q ab ab' x T (ex_intro _ c (conj Ec V)) E) as (c2 & E3 & V2).
  assert (c2 = c1) by congruence. subst c2. subst ab'. cbn in E1. inversion E1; subst c1. split; [|eauto].
  split; [apply tree_set_cache; auto|]. exists c'. rewrite E2. auto.
Qed.
Lemma set_cache_twice ab c c' : set_cache (set_cache ab c) c' = set_cache ab c'.
Proof. reflexivity. Qed.
Lemma ready_asks qs dt qp : forall ab ab', ready dt qp ab -> run solve pinv (map OAsk qs) ab = Some ab' ->
  ready dt qp ab' /\ exists c, ab' = set_cache ab c.
Proof.
  induction qs as [|q qs IH]; intros ab ab' R E.
  - cbn in E. inversion E; subst. split; [auto|]. exists (ab_cache ab'). destruct ab'; reflexivity.
  - cbn [map run] in E. destruct (step solve pinv (OAsk q) ab) as [a1|] eqn:Q; [|discriminate].
    apply step_ask in Q. destruct Q as [->|(q' & x & Q)]; [eapply IH; eauto|].
    destruct (ready_ask _ _ _ _ _ _ R Q) as [R1 [c1 ->]]. destruct (IH _ _ R1 E) as [R2 [c2 ->]]. split; [auto|]. exists c2. reflexivity.
Qed.

Lemma travel_obeys dt mem : dt <> 0 -> keq dt dt = true -> forall legs qp ab abs, List.length qp = ab_dof ab -> ready dt qp ab ->
  travel solve pinv log6 dlog6 norm dt legs ab = Some abs -> obeys log6 dlog6 norm dt mem qp ab legs abs.
Proof.
  intros Hd HR. induction legs as [|l legs IH]; intros qp ab abs Hp R E; cbn [travel] in E.
  - inversion E; subst. exact I.
  - destruct (run solve pinv _ ab) as [a1|] eqn:Er; [|discriminate].
    destruct (q_DiscreteIntegrate _ _ _ _ _ _ _ _ _ _ a1) as [[ab' []]| |] eqn:Ei; try discriminate.
    destruct (travel _ _ _ _ _ _ legs ab') as [abs'|] eqn:Et; [|discriminate]. inversion E; subst abs; clear E.
    destruct (ready_asks _ _ _ _ _ R Er) as [R1 [c1 ->]].
    destruct (dint_ok solve log6 dlog6 norm _ _ _ _ _ _ _ _ _ (apart dt) HR R1 Ei) as (R2 & I1 & I2 & I3 & I4 & I5 & I6 & I7 & I8 & I9 & I10).
    cbn [ab_dof ab_rbs ab_q ab_g ab_loads ab_Tbase ab_anc ab_sub set_cache] in *.
    pose proof (proj1 R) as T.
    cbn [obeys]. split; [exact I1|]. split; [exact I2|].
    assert (Lq : List.length (ab_q ab) = ab_dof ab) by apply T.
    split; [|split; [|split]].
    + exists (vec (ab_dof ab) (dval log6 dlog6 ab qp (ab_q ab') dt (l_fe l) (l_grav l))). split.
      * apply did_from_val; auto.
      * unfold balances. rewrite vmap2_vec.
        erewrite vec_ext; [exact I10|]. intros i Hi. cbn beta. unfold qk at 1. rewrite nth_vec by auto. reflexivity.
    + rewrite I9, vmap2_vec. reflexivity.
    + intros qn fe grav. rewrite <- I1. apply did_from; auto. rewrite I1. exact Lq.
    + apply IH; auto. rewrite I1. exact Lq.
Qed.

Lemma ready_start h ab dt : dreached h ab -> dbase_fixed false h = true -> no_integration h = true ->
  ready dt (vmap2 (ab_dof ab) (fun x v => x - dt * v) (ab_q ab) (ab_dq ab)) ab.
Proof.
  intros Re Hb Hn. destruct (dreached_inv solve pinv log6 dlog6 norm (AC := laws_comm) h ab Re Hb Hn (dts_all h)) as (T & (c0 & E0 & V) & (c & E & D & M)).
  assert (c0 = c) by congruence. subst c0. split; [auto|]. exists c. split; [auto|]. split; [auto|]. split; [auto|].
  rewrite (mless_prevq ab dt _ (apart dt) M). reflexivity.
Qed.
Lemma c48 h ab dt mem legs abs : dreached h ab -> dbase_fixed false h = true -> no_integration h = true ->
  dt <> 0 -> keq dt dt = true -> travel solve pinv log6 dlog6 norm dt legs ab = Some abs ->
  obeys log6 dlog6 norm dt mem (vmap2 (ab_dof ab) (fun x v => x - dt * v) (ab_q ab) (ab_dq ab)) ab legs abs.
Proof.
  intros Re Hb Hn Hd HR E. apply travel_obeys; auto. - apply vmap2_length. - apply (ready_start h); auto.
Qed.
End Travel.
