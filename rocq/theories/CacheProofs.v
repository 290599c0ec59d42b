(** Cache coherence: whenever a flag is set, the cached data equal the values
    determined by the robot's state.  No laws of arithmetic (except commutativity of
    + for velocities computed by opspace::CentrifugalCoriolisAba). *)
From Coq Require Import List Arith ZArith Bool Lia.
From Verif Require Import Scalar Base Spatial Joint Body Kin InvDyn FwdDyn Opspace OpspaceAba Deriv Sim Ops Specs TreeProofs.
Import ListNotations.

Lemma for_up_ind {St} (P : nat -> St -> Prop) n f s0 : P 0 s0 ->
  (forall i s, i < n -> P i s -> P (Datatypes.S i) (f i s)) -> P n (for_up n f s0).
Proof.
  intros H0 Hs. assert (X : forall m, m <= n -> P m (for_up m f s0)).
  { induction m; cbn; intros; auto; apply Hs; [lia|apply IHm; lia]. }
  apply X; auto.
Qed.
Lemma for_down_ind {St} (P : nat -> St -> Prop) n f s0 : P n s0 ->
  (forall i s, i < n -> P (Datatypes.S i) s -> P i (f i s)) -> P 0 (for_down n f s0).
Proof.
  revert s0. induction n; cbn; intros; auto.
Qed.
Lemma for_down_ind2 {St1 St2} (P : nat -> St1 -> St2 -> Prop) n f1 f2 s1 s2 : P n s1 s2 ->
  (forall i s t, i < n -> P (Datatypes.S i) s t -> P i (f1 i s) (f2 i t)) -> P 0 (for_down n f1 s1) (for_down n f2 s2).
Proof.
  revert s1 s2. induction n; cbn; intros; auto.
Qed.
Lemma for_up_ind2 {St1 St2} (P : nat -> St1 -> St2 -> Prop) n f1 f2 s1 s2 : P 0 s1 s2 ->
  (forall i s t, i < n -> P i s t -> P (Datatypes.S i) (f1 i s) (f2 i t)) -> P n (for_up n f1 s1) (for_up n f2 s2).
Proof.
  intros H0 Hs. assert (X : forall m, m <= n -> P m (for_up m f1 s1) (for_up m f2 s2)).
  { induction m; cbn; intros; auto; apply Hs; [lia|apply IHm; lia]. }
  apply X; auto.
Qed.
(** Extending knowledge about the first m entries. *)
Lemma upd_lt {A} (a b : arr A) i x m : (forall j, j < i -> a j = b j) -> x = b i -> m < Datatypes.S i -> upd a i x m = b m.
Proof.
  intros H E Hm. unfold upd. destruct (Nat.eqb_spec m i); [subst; auto|]. apply H. lia.
Qed.
Lemma for_up_fill {A} n (g : nat -> A) a0 i : i < n -> for_up n (fun i a => upd a i (g i)) a0 i = g i.
Proof.
  revert i. apply (for_up_ind (fun m a => forall i, i < m -> a i = g i)); [lia|].
  intros i a Hi IH j Hj. apply upd_lt with (b := g); auto.
Qed.

Section Cache.
Context {S : Scal}.
Variable solve : list (list K) -> list K -> list K.
Variable pinv : list (list K) -> K -> list (list K) * bool.
Local Open Scope k_scope.

(** ** Values determined by the state *)

(** Recursion along the path to the base. *)
Section Trec.
Context {A : Type} (pr : nat -> option nat) (root : nat -> A) (step : nat -> A -> A).
Fixpoint trec (fuel i : nat) : A :=
  match pr i with
  | None => root i
  | Some p => match fuel with O => root i | Datatypes.S f => step i (trec f p) end
  end.
End Trec.
Definition tval {A} (ab : body) (root : nat -> A) (step : nat -> A -> A) (i : nat) : A := trec (par ab) root step i i.

Lemma trec_fuel {A} ab (root : nat -> A) step i : tree_ok ab -> i < ab_dof ab -> forall f, i <= f ->
  trec (par ab) root step f i = trec (par ab) root step i i.
Proof.
  intros T. induction i as [i IH] using lt_wf_ind. intros Hi f Hf.
  destruct f, i; cbn; auto; try lia; destruct (par ab _) as [p|] eqn:E; auto;
    pose proof (tree_par _ _ _ T Hi E); try lia.
  rewrite (IH p) with (f := f) by lia. rewrite (IH p) with (f := i) by lia. auto.
Qed.
Lemma tval_eq {A} ab (root : nat -> A) step i : tree_ok ab -> i < ab_dof ab ->
  tval ab root step i = match par ab i with None => root i | Some p => step i (tval ab root step p) end.
Proof.
  intros T Hi. unfold tval. destruct i; cbn; destruct (par ab _) as [p|] eqn:E; auto;
    pose proof (tree_par _ _ _ T Hi E); try lia.
  rewrite trec_fuel; auto; lia.
Qed.

Definition tpv (ab : body) (i : nat) : iso := T_par_q ab i (qk (ab_q ab) i).
Definition twv (ab : body) : arr iso :=
  tval ab (fun i => iso_mul (ab_Tbase ab) (tpv ab i)) (fun i T => iso_mul T (tpv ab i)).
Definition velv (ab : body) : arr motion :=
  tval ab (fun i => mscale (qk (ab_dq ab) i) (sub_at ab i))
          (fun i v => madd (mscale (qk (ab_dq ab) i) (sub_at ab i)) (mact (iso_inv (tpv ab i)) v)).
Definition ccv (ab : body) : arr motion :=
  tval ab (fun _ => mzero)
          (fun i c => madd (mact (iso_inv (tpv ab i)) c)
                           (mcross (velv ab i) (mscale (qk (ab_dq ab) i) (sub_at ab i)))).
Definition ccf0 (ab : body) (i : nat) : force :=
  fadd (imul (inertia_at ab i) (ccv ab i)) (fcross (velv ab i) (imul (inertia_at ab i) (velv ab i))).
(** Backward pass over given link forces. *)
Definition back (ab : body) (f0 : arr force) : arr K :=
  fst (for_down (ab_dof ab) (back_step ab (tpv ab)) (fun _ => 0, f0)).
Definition Cv (ab : body) : arr K := back ab (ccf0 ab).
Definition Gv (ab : body) : arr K := back ab (grav_f0 ab (twv ab)).
Definition Extv (ab : body) (fe : fmap) : arr K := back ab (ext_f0 ab (twv ab) fe).
Definition crbav (ab : body) : arr inertia * arr2 K :=
  for_down (ab_dof ab) (crba_step ab (tpv ab)) (inertia_at ab, fun _ _ => 0).
Definition Icv (ab : body) : arr inertia := fst (crbav ab).
Definition Av (ab : body) : arr2 K := snd (crbav ab).
Definition jacv (ab : body) (link : nat) (off : v3) : arr motion := jac_loop ab (twv ab) link off.

(** ** The invariant *)
Record inv (ab : body) (c : cache) : Prop := {
  i_Tp : is_Tp (ca_T c) = true -> forall i, i < ab_dof ab -> c_Tp (ca_T c) i = tpv ab i;
  i_Tw : is_Tw (ca_T c) = true -> forall i, i < ab_dof ab -> c_Tw (ca_T c) i = twv ab i;
  i_vel : is_vel (ca_vel c) = true -> forall i, i < ab_dof ab -> c_v (ca_vel c) i = velv ab i;
  i_jac : is_jac (ca_jac c) = true -> j_link (ca_jac c) < ab_dof ab /\
          forall i, i < ab_dof ab -> c_J (ca_jac c) i = jacv ab (j_link (ca_jac c)) (j_offset (ca_jac c)) i;
  i_cc : is_cc (ca_cc c) = true -> forall i, i < ab_dof ab -> c_cc (ca_cc c) i = ccv ab i /\ c_C (ca_cc c) i = Cv ab i;
  i_grav : is_grav (ca_grav c) = true -> forall i, i < ab_dof ab -> c_G (ca_grav c) i = Gv ab i;
  i_crba : is_crba (ca_crba c) = true ->
          (forall i, i < ab_dof ab -> c_Ic (ca_crba c) i = Icv ab i) /\
          (forall i j, i < ab_dof ab -> j < ab_dof ab -> c_A (ca_crba c) i j = Av ab i j);
  i_crbai : is_crba_inv (ca_crba c) = true ->
          forall i j, i < ab_dof ab -> j < ab_dof ab -> c_Afact (ca_crba c) i j = Av ab i j
}.

Lemma inv_all_clear ab c : inv ab (all_clear c).
Proof. constructor; cbn; discriminate. Qed.

Ltac inv_same H := destruct H; constructor; cbn in *; auto.
Lemma inv_rnea ab c x : inv ab c -> inv ab (with_rnea c x). Proof. intros H; inv_same H. Qed.
Lemma inv_aba ab c x : inv ab c -> inv ab (with_aba c x). Proof. intros H; inv_same H. Qed.
Lemma inv_op ab c x : inv ab c -> inv ab (with_op c x). Proof. intros H; inv_same H. Qed.
Lemma inv_oa ab c x : inv ab c -> inv ab (with_oa c x). Proof. intros H; inv_same H. Qed.
Lemma inv_dr ab c x : inv ab c -> inv ab (with_dr c x). Proof. intros H; inv_same H. Qed.
Lemma inv_vel ab c x : inv ab c -> (is_vel x = true -> forall i, i < ab_dof ab -> c_v x i = velv ab i) -> inv ab (with_vel c x).
Proof. intros H H1; inv_same H. Qed.
Lemma inv_grav ab c x : inv ab c -> (is_grav x = true -> forall i, i < ab_dof ab -> c_G x i = Gv ab i) -> inv ab (with_grav c x).
Proof. intros H H1; inv_same H. Qed.
Hint Resolve inv_rnea inv_aba inv_op inv_oa inv_dr : core.

(** ** Transforms *)
Section Queries.
Variable ab : body.
Hypothesis T : tree_ok ab.
Let n := ab_dof ab.

Lemma par_lt i p : i < n -> par ab i = Some p -> p < i.
Proof. apply tree_par; auto. Qed.

Lemma ensure_Tp_inv c : inv ab c -> inv ab (ensure_Tp ab c) /\ is_Tp (ca_T (ensure_Tp ab c)) = true.
Proof.
  intros H. unfold ensure_Tp. destruct (is_Tp (ca_T c)) eqn:E; [auto|]. split; [|reflexivity].
  destruct H; constructor; cbn in *; auto.
  intros _ i Hi. apply (for_up_fill (ab_dof ab) (fun j => T_par_q ab j (qk (ab_q ab) j))); auto.
Qed.
Lemma ensure_Tp_at c i : inv ab c -> i < n -> c_Tp (ca_T (ensure_Tp ab c)) i = tpv ab i.
Proof. intros H Hi. apply ensure_Tp_inv in H. destruct H as [H F]. exact (i_Tp _ _ H F i Hi). Qed.
Lemma Tw_loop Tp a0 : (forall i, i < n -> Tp i = tpv ab i) -> forall i, i < n ->
  for_up n (Tw_step ab Tp) a0 i = twv ab i.
Proof.
  intros HT. apply (for_up_ind (fun m a => forall i, i < m -> a i = twv ab i)); [lia|].
  intros i a Hi IH j Hj. unfold Tw_step.
  assert (E : twv ab i = match par ab i with None => iso_mul (ab_Tbase ab) (tpv ab i) | Some p => iso_mul (twv ab p) (tpv ab i) end)
    by (unfold twv; rewrite tval_eq by auto; reflexivity).
  destruct (par ab i) as [p|] eqn:P; apply upd_lt with (b := twv ab); auto; rewrite HT by auto; rewrite E; auto.
  rewrite IH; auto. apply par_lt; auto.
Qed.
Lemma ensure_Tw_inv c : inv ab c -> inv ab (ensure_Tw ab c) /\ is_Tw (ca_T (ensure_Tw ab c)) = true.
Proof.
  intros H. unfold ensure_Tw. destruct (is_Tw (ca_T c)) eqn:E; [auto|]. split; [|reflexivity].
  destruct (ensure_Tp_inv c H) as [H1 F1].
  pose proof (Tw_loop (c_Tp (ca_T (ensure_Tp ab c))) (c_Tw (ca_T (ensure_Tp ab c)))) as X.
  destruct H1; constructor; cbn in *; auto.
Qed.
Lemma ensure_Tw_at c i : inv ab c -> i < n -> c_Tw (ca_T (ensure_Tw ab c)) i = twv ab i.
Proof. intros H Hi. apply ensure_Tw_inv in H. destruct H as [H F]. exact (i_Tw _ _ H F i Hi). Qed.

(** ensure_Tw and ensure_Tp only touch the transforms. *)
Definition same_rest (c c' : cache) : Prop := exists x, c' = with_T c x.
Lemma sr_refl c : same_rest c c. Proof. exists (ca_T c). destruct c; reflexivity. Qed.
Lemma sr_trans a b c : same_rest a b -> same_rest b c -> same_rest a c.
Proof. intros [x ->] [y ->]. exists y. reflexivity. Qed.
Lemma sr_Tp c : same_rest c (ensure_Tp ab c).
Proof. unfold ensure_Tp. destruct (is_Tp _); [apply sr_refl|]. eexists; reflexivity. Qed.
Lemma sr_Tw c : same_rest c (ensure_Tw ab c).
Proof.
  unfold ensure_Tw. destruct (is_Tw _); [apply sr_refl|].
  eapply sr_trans; [apply sr_Tp|]. eexists; reflexivity.
Qed.

(** Transforms are right wherever they are used. *)
Definition tp_ok (Tp : arr iso) : Prop := forall i p, i < n -> par ab i = Some p -> Tp i = tpv ab i.
Lemma tp_ok_v : tp_ok (tpv ab). Proof. intros i p _ _; auto. Qed.
Lemma has_child_ok c : inv ab c -> let c' := if has_child ab then ensure_Tp ab c else c in
  inv ab c' /\ tp_ok (c_Tp (ca_T c')) /\ same_rest c c'.
Proof.
  intros H. cbn. destruct (has_child ab) eqn:E.
  - split; [apply ensure_Tp_inv, H|]. split; [|apply sr_Tp]. intros i p Hi _. apply ensure_Tp_at; auto.
  - split; [auto|]. split; [|apply sr_refl]. intros i p Hi P. exfalso.
    assert (X : has_child ab = true).
    { apply existsb_exists. exists i. split; [apply in_seq; cbn; fold n; lia|]. rewrite P. reflexivity. }
    congruence.
Qed.

(** ** Backward pass *)
Lemma back_cong Tp Tp' f f' out out' : tp_ok Tp -> tp_ok Tp' -> (forall i, i < n -> f i = f' i) ->
  forall i, i < n -> fst (for_down n (back_step ab Tp) (out, f)) i = fst (for_down n (back_step ab Tp') (out', f')) i.
Proof.
  intros HT HT' Hf.
  assert (X : (fun m s t => (forall i, m <= i -> i < n -> fst s i = fst t i) /\ (forall i, i < n -> snd s i = snd t i)) 0%nat
     (for_down n (back_step ab Tp) (out, f)) (for_down n (back_step ab Tp') (out', f'))).
  { apply (for_down_ind2 (fun m (s t : arr K * arr force) => (forall i, m <= i -> i < n -> fst s i = fst t i) /\ (forall i, i < n -> snd s i = snd t i))).
    - split; [lia|]. exact Hf.
    - intros i [o1 f1] [o2 f2] Hi [Ho Hff]. cbn in Ho, Hff. unfold back_step.
      assert (Ho' : forall j, i <= j -> j < n -> upd o1 i (mdot (sub_at ab i) (f1 i)) j = upd o2 i (mdot (sub_at ab i) (f2 i)) j).
      { intros j H1 H2. unfold upd. destruct (Nat.eqb_spec j i); [rewrite Hff by auto; auto|]. apply Ho; lia. }
      destruct (par ab i) as [p|] eqn:P; cbn [fst snd]; split; auto.
      intros j Hj. unfold upd. destruct (Nat.eqb_spec j p); [|auto].
      rewrite (HT i p), (HT' i p), !Hff; auto. pose proof (par_lt i p Hi P). lia. }
  intros i Hi. apply X; auto; lia.
Qed.
Lemma back_at Tp f out f0 : tp_ok Tp -> (forall i, i < n -> f i = f0 i) -> forall i, i < n ->
  fst (for_down n (back_step ab Tp) (out, f)) i = back ab f0 i.
Proof. intros HT Hf i Hi. unfold back. apply back_cong; auto using tp_ok_v. Qed.

(** ** Velocities, Coriolis *)
Lemma velv_eq i : i < n -> velv ab i = vel_at ab (tpv ab) (velv ab) (qk (ab_dq ab) i) i.
Proof. intros Hi. unfold velv at 1. rewrite tval_eq by auto. reflexivity. Qed.
Lemma vel_at_cong Tp v i : tp_ok Tp -> i < n -> (forall j, j < i -> v j = velv ab j) ->
  vel_at ab Tp v (qk (ab_dq ab) i) i = velv ab i.
Proof.
  intros HT Hi Hv. rewrite velv_eq by auto. unfold vel_at. destruct (par ab i) as [p|] eqn:P; auto.
  rewrite (HT i p), Hv; auto. apply par_lt; auto.
Qed.
Lemma ccv_eq i : i < n -> ccv ab i = match par ab i with None => mzero | Some p =>
  madd (mact (iso_inv (tpv ab i)) (ccv ab p)) (mcross (velv ab i) (mscale (qk (ab_dq ab) i) (sub_at ab i))) end.
Proof. intros Hi. unfold ccv. rewrite tval_eq by auto. reflexivity. Qed.

Lemma cc_loop Tp velc v cc f : tp_ok Tp -> (velc = true -> forall i, i < n -> v i = velv ab i) ->
  let '(v', cc', f') := for_up n (cc_fwd_step ab Tp velc) (v, cc, f) in
  forall i, i < n -> v' i = velv ab i /\ cc' i = ccv ab i /\ f' i = ccf0 ab i.
Proof.
  intros HT Hv.
  assert (X : (fun m (s : arr motion * arr motion * arr force) => let '(v', cc', f') := s in
     (velc = true -> v' = v) /\ forall i, i < m -> v' i = velv ab i /\ cc' i = ccv ab i /\ f' i = ccf0 ab i) n
     (for_up n (cc_fwd_step ab Tp velc) (v, cc, f))).
  { apply for_up_ind.
    - split; auto; lia.
    - intros i [[v1 cc1] f1] Hi [Hvc IH]. cbn.
      set (v2 := if velc then v1 else upd v1 i (vel_at ab Tp v1 (qk (ab_dq ab) i) i)).
      assert (Hv2 : forall j, j < Datatypes.S i -> v2 j = velv ab j).
      { intros j Hj. unfold v2. destruct velc.
        - rewrite Hvc by auto. apply Hv; auto; lia.
        - apply upd_lt with (b := velv ab); auto; [intros; apply IH; auto|].
          apply vel_at_cong; auto. intros; apply IH; auto. }
      split; [unfold v2; destruct velc; [exact Hvc|discriminate]|].
      set (ci := match par ab i with None => mzero | Some p =>
        madd (mact (iso_inv (Tp i)) (cc1 p)) (mcross (v2 i) (mscale (qk (ab_dq ab) i) (sub_at ab i))) end).
      assert (Hci : ci = ccv ab i).
      { unfold ci. rewrite ccv_eq by auto. destruct (par ab i) as [p|] eqn:P; auto.
        rewrite (HT i p), Hv2 by auto. destruct (IH p) as (_ & -> & _); auto. apply par_lt; auto. }
      intros j Hj. split; [apply Hv2; auto|]. split.
      + apply upd_lt with (b := ccv ab); auto. intros; apply IH; auto.
      + apply upd_lt with (b := ccf0 ab); auto; [intros; apply IH; auto|].
        rewrite Hci, Hv2 by auto. reflexivity. }
  destruct (for_up n (cc_fwd_step ab Tp velc) (v, cc, f)) as [[v' cc'] f']. apply X.
Qed.

Lemma ensure_cc_inv c : inv ab c -> inv ab (ensure_cc ab c) /\ is_cc (ca_cc (ensure_cc ab c)) = true.
Proof.
  intros H. unfold ensure_cc. destruct (is_cc (ca_cc c)) eqn:E; [auto|].
  destruct (has_child_ok c H) as (H1 & HT & _). cbn in *.
  set (c1 := if has_child ab then ensure_Tp ab c else c) in *.
  pose proof (cc_loop (c_Tp (ca_T c1)) (is_vel (ca_vel c1)) (c_v (ca_vel c1)) (c_cc (ca_cc c1)) (c_fc (ca_cc c1)) HT
                (i_vel _ _ H1)) as X. fold n.
  destruct (for_up n _ _) as [[v' cc'] f'].
  pose proof (back_at (c_Tp (ca_T c1)) f' (c_C (ca_cc c1)) (ccf0 ab) HT (fun i Hi => proj2 (proj2 (X i Hi)))) as Y.
  destruct (for_down n _ _) as [C f2]. cbn in Y.
  split; [|reflexivity]. destruct H1; constructor; cbn in *; auto.
  - intros _ i Hi. apply X; auto.
  - intros _ i Hi. split; [apply X; auto|]. apply Y; auto.
Qed.

(** ** Gravity, external forces *)
Lemma ensure_grav_inv c : inv ab c -> inv ab (ensure_grav ab c) /\ is_grav (ca_grav (ensure_grav ab c)) = true.
Proof.
  intros H. unfold ensure_grav. destruct (is_grav (ca_grav c)) eqn:E; [auto|]. fold n.
  set (c0 := if Nat.ltb 0 n then ensure_Tw ab c else c).
  assert (H0 : inv ab c0) by (unfold c0; destruct (Nat.ltb 0 n); auto; apply ensure_Tw_inv; auto).
  assert (W : forall i, i < n -> c_Tw (ca_T c0) i = twv ab i).
  { intros i Hi. unfold c0. destruct (Nat.ltb_spec 0 n); [|lia]. apply ensure_Tw_at; auto. }
  destruct (has_child_ok c0 H0) as (H1 & HT & _). cbn in *.
  set (c1 := if has_child ab then ensure_Tp ab c0 else c0) in *.
  assert (W1 : forall i, i < n -> c_Tw (ca_T c1) i = twv ab i).
  { intros i Hi. unfold c1. destruct (has_child ab); auto. unfold ensure_Tp. destruct (is_Tp _); cbn; auto. }
  set (f0 := for_up n _ _).
  assert (F : forall i, i < n -> f0 i = grav_f0 ab (twv ab) i).
  { intros i Hi. unfold f0. rewrite for_up_fill by auto. unfold grav_f0. rewrite W1; auto. }
  pose proof (back_at (c_Tp (ca_T c1)) f0 (c_G (ca_grav c1)) _ HT F) as Y.
  destruct (for_down n _ _) as [G f2]. cbn in Y.
  split; [|reflexivity]. destruct H1; constructor; cbn in *; auto.
Qed.

Lemma has_ext_ok fe i x : i < n -> fe i = Some x -> has_ext ab fe = true.
Proof.
  intros Hi E. apply existsb_exists. exists i. split; [apply in_seq; cbn; fold n; lia|]. rewrite E; reflexivity.
Qed.
Lemma ensure_Tp_Tw c i : c_Tw (ca_T (ensure_Tp ab c)) i = c_Tw (ca_T c) i.
Proof. unfold ensure_Tp. destruct (is_Tp _); auto. Qed.
Lemma ensure_Tp_Twf c : is_Tw (ca_T (ensure_Tp ab c)) = is_Tw (ca_T c).
Proof. unfold ensure_Tp. destruct (is_Tp _) eqn:E; auto. Qed.
Lemma ensure_Tw_Tpf c : is_Tp (ca_T c) = true -> ensure_Tp ab c = c.
Proof. intros E. unfold ensure_Tp. rewrite E. auto. Qed.
Lemma ensure_Tw_Tp c i : is_Tp (ca_T c) = true -> c_Tp (ca_T (ensure_Tw ab c)) i = c_Tp (ca_T c) i.
Proof.
  intros E. unfold ensure_Tw. destruct (is_Tw _); auto. rewrite ensure_Tw_Tpf; auto.
Qed.
Lemma tp_ok_Tw c : inv ab c -> tp_ok (c_Tp (ca_T c)) -> tp_ok (c_Tp (ca_T (ensure_Tw ab c))).
Proof.
  intros H HT. unfold ensure_Tw. destruct (is_Tw (ca_T c)); auto. cbn.
  intros i p Hi P. apply ensure_Tp_at; auto.
Qed.

Lemma ext_torques_inv fe c : inv ab c -> inv ab (fst (ext_torques ab fe c)) /\
  (forall i, i < n -> snd (ext_torques ab fe c) i = Extv ab fe i) /\
  (exists t g, fst (ext_torques ab fe c) = with_grav (with_T c t) g /\ is_grav g = is_grav (ca_grav c) /\ c_G g = c_G (ca_grav c)).
Proof.
  intros H. unfold ext_torques. fold n.
  destruct (has_child_ok c H) as (H1 & HT & R1). cbn in *.
  set (c1 := if has_child ab then ensure_Tp ab c else c) in *.
  set (c2 := if has_ext ab fe then ensure_Tw ab c1 else c1).
  assert (H2 : inv ab c2) by (unfold c2; destruct (has_ext ab fe); auto; apply ensure_Tw_inv; auto).
  assert (HT2 : tp_ok (c_Tp (ca_T c2))) by (unfold c2; destruct (has_ext ab fe); auto; apply tp_ok_Tw; auto).
  assert (R2 : same_rest c c2).
  { eapply sr_trans; [exact R1|]. unfold c2. destruct (has_ext ab fe); [apply sr_Tw|apply sr_refl]. }
  set (f0 := for_up n _ _).
  assert (F : forall i, i < n -> f0 i = ext_f0 ab (twv ab) fe i).
  { intros i Hi. unfold f0. rewrite for_up_fill by auto. unfold ext_f0. destruct (fe i) eqn:E; auto.
    unfold c2. rewrite (has_ext_ok fe i _ Hi E). rewrite ensure_Tw_at; auto. }
  pose proof (back_at (c_Tp (ca_T c2)) f0 (fun _ => 0) _ HT2 F) as Y.
  destruct (for_down n _ _) as [tau f2]. cbn in Y. cbn [fst snd].
  destruct R2 as [t ->]. split; [|split].
  - apply inv_grav; auto. cbn. intros G. apply (i_grav _ _ H G).
  - exact Y.
  - eexists _, _. split; [reflexivity|]. split; reflexivity.
Qed.

(** ** Composite-body inertia *)
Lemma crba_up_cong Tp Tp' i : tp_ok Tp -> tp_ok Tp' -> forall fuel child f A A', child < n ->
  (forall a b, A a b = A' a b) ->
  forall a b, snd (fold_left (crba_up ab Tp i) (chain ab fuel (par ab child)) (child, f, A)) a b =
              snd (fold_left (crba_up ab Tp' i) (chain ab fuel (par ab child)) (child, f, A')) a b.
Proof.
  intros HT HT'. induction fuel; intros child f A A' Hc HA; cbn; auto.
  destruct (par ab child) as [j|] eqn:P; cbn; auto.
  pose proof (par_lt child j Hc P).
  rewrite (HT child j), (HT' child j) by auto. apply IHfuel; [lia|].
  intros a b. unfold upd2. rewrite !HA. reflexivity.
Qed.
Lemma crba_cong Tp Tp' Ic Ic' A A' : tp_ok Tp -> tp_ok Tp' -> (forall i, i < n -> Ic i = Ic' i) ->
  (forall a b, A a b = A' a b) ->
  let s := for_down n (crba_step ab Tp) (Ic, A) in let t := for_down n (crba_step ab Tp') (Ic', A') in
  (forall i, i < n -> fst s i = fst t i) /\ forall a b, snd s a b = snd t a b.
Proof.
  intros HT HT' HI HA. cbn.
  apply (for_down_ind2 (fun (m : nat) (s t : arr inertia * arr2 K) => (forall i, i < n -> fst s i = fst t i) /\ (forall a b, snd s a b = snd t a b))); [auto|].
  intros i [I1 A1] [I2 A2] Hi [HI1 HA1]. cbn in HI1, HA1. unfold crba_step.
  set (J1 := match par ab i with None => I1 | Some p => _ end).
  set (J2 := match par ab i with None => I2 | Some p => _ end).
  assert (HJ : forall j, j < n -> J1 j = J2 j).
  { intros j Hj. unfold J1, J2. destruct (par ab i) as [p|] eqn:P; auto. pose proof (par_lt i p Hi P).
    unfold upd. destruct (Nat.eqb_spec j p); auto. rewrite (HT i p), (HT' i p), !HI1; auto; lia. }
  unfold up_chain. cbn [chain tl]. rewrite <- (HJ i Hi).
  pose proof (crba_up_cong Tp Tp' i HT HT' i i (imul (J1 i) (sub_at ab i))
     (upd2 A1 i i (mdot (sub_at ab i) (imul (J1 i) (sub_at ab i))))
     (upd2 A2 i i (mdot (sub_at ab i) (imul (J1 i) (sub_at ab i)))) Hi) as X.
  destruct (fold_left (crba_up ab Tp i) _ _) as [[x1 y1] z1]. destruct (fold_left (crba_up ab Tp' i) _ _) as [[x2 y2] z2].
  cbn in *. split; auto. apply X. intros a b. unfold upd2. destruct (_ && _); auto.
Qed.

Lemma ensure_crba_inv_ok c : inv ab c -> inv ab (ensure_crba ab c) /\ is_crba (ca_crba (ensure_crba ab c)) = true.
Proof.
  intros H. unfold ensure_crba. destruct (is_crba (ca_crba c)) eqn:E; [auto|]. fold n.
  destruct (has_child_ok c H) as (H1 & HT & _). cbn in *.
  set (c1 := if has_child ab then ensure_Tp ab c else c) in *.
  set (Ic0 := for_up n _ _).
  assert (F : forall i, i < n -> Ic0 i = inertia_at ab i) by (intros i Hi; unfold Ic0; apply (for_up_fill n (inertia_at ab)); auto).
  pose proof (crba_cong (c_Tp (ca_T c1)) (tpv ab) Ic0 (inertia_at ab) (fun _ _ => 0) (fun _ _ => 0) HT tp_ok_v F (fun _ _ => eq_refl)) as [X Y].
  assert (X' : forall i, i < n -> fst (for_down n (crba_step ab (c_Tp (ca_T c1))) (Ic0, fun _ _ => 0)) i = Icv ab i) by exact X.
  assert (Y' : forall a b, snd (for_down n (crba_step ab (c_Tp (ca_T c1))) (Ic0, fun _ _ => 0)) a b = Av ab a b) by exact Y.
  destruct (for_down n (crba_step ab (c_Tp (ca_T c1))) _) as [Ic A]. cbn in X', Y'.
  split; [|reflexivity]. destruct H1; constructor; cbn in *; auto.
Qed.
Lemma ensure_crba_inv_inv c : inv ab c -> inv ab (ensure_crba_inv ab c) /\ is_crba_inv (ca_crba (ensure_crba_inv ab c)) = true.
Proof.
  intros H. unfold ensure_crba_inv. destruct (is_crba_inv (ca_crba c)) eqn:E; [auto|].
  destruct (ensure_crba_inv_ok c H) as [H1 F]. split; [|reflexivity].
  destruct H1; constructor; cbn in *; auto. intros _. apply i_crba0; auto.
Qed.

(** ** Jacobian *)
Lemma jac_loop_cong Tw Tw' l off : (forall i, i < n -> Tw i = Tw' i) -> l < n -> forall i,
  jac_loop ab Tw l off i = jac_loop ab Tw' l off i.
Proof.
  intros HT Hl. unfold jac_loop. rewrite (HT l Hl).
  assert (HA : forall j, In j (anc_at ab l) -> j < n).
  { intros j Hj. apply (tree_in_anc_le ab j l T Hl) in Hj. lia. }
  generalize (fun _ : nat => mzero) as a0. induction (anc_at ab l) as [|x xs IH]; intros a0 i; cbn; auto.
  rewrite (HT x) by (apply HA; left; auto). apply IH. intros; apply HA; right; auto.
Qed.
Lemma ensure_jac_inv l off c : inv ab c -> l < n -> inv ab (ensure_jac ab l off c) /\
  exists off', is_jac (ca_jac (ensure_jac ab l off c)) = true /\ j_link (ca_jac (ensure_jac ab l off c)) = l /\
     j_offset (ca_jac (ensure_jac ab l off c)) = off' /\ (off' = off \/ is_jac (ca_jac c) = true /\ v3eqb off' off = true).
Proof.
  intros H Hl. unfold ensure_jac.
  destruct (is_jac (ca_jac c) && Nat.eqb (j_link (ca_jac c)) l && v3eqb (j_offset (ca_jac c)) off) eqn:E.
  - apply andb_true_iff in E. destruct E as [E E3]. apply andb_true_iff in E. destruct E as [E1 E2].
    apply Nat.eqb_eq in E2. split; auto. exists (j_offset (ca_jac c)). auto 6.
  - destruct (ensure_Tw_inv c H) as [H1 F].
    pose proof (jac_loop_cong (c_Tw (ca_T (ensure_Tw ab c))) (twv ab) l off (fun i Hi => ensure_Tw_at c i H Hi) Hl) as X.
    split.
    + destruct H1; constructor; cbn in *; auto. intros _. split; auto. intros; apply X.
    + exists off. cbn. auto.
Qed.

(** ** Algorithms that only use the shared parts *)
Lemma id_fwd_vel Tp Tw velc o ddq fe v a f : tp_ok Tp -> (velc = true -> forall i, i < n -> v i = velv ab i) -> o_cc o = true ->
  forall i, i < n -> fst (fst (for_up n (id_fwd_step ab Tp Tw velc o ddq fe) (v, a, f))) i = velv ab i.
Proof.
  intros HT Hv Ho.
  assert (X : (fun m (s : arr motion * arr motion * arr force) => (velc = true -> fst (fst s) = v) /\
     forall i, i < m -> fst (fst s) i = velv ab i) n
     (for_up n (id_fwd_step ab Tp Tw velc o ddq fe) (v, a, f))).
  { apply for_up_ind.
    - split; auto; lia.
    - intros i [[v1 a1] f1] Hi [Hvc IH]. cbn in *. rewrite Ho. rewrite andb_true_r. destruct velc; cbn.
      + rewrite Hvc by auto. split; auto. intros; apply Hv; auto; lia.
      + split; [discriminate|]. intros j Hj. apply upd_lt with (b := velv ab); auto. apply vel_at_cong; auto. }
  apply X.
Qed.
Lemma inverse_dynamics_inv ddq fe o c : inv ab c -> inv ab (fst (inverse_dynamics ab ddq fe o c)).
Proof.
  intros H. unfold inverse_dynamics. fold n.
  destruct (is_crba (ca_crba c) && _ && _).
  - destruct (ext_torques_inv fe c H) as (H1 & _ & _). destruct (ext_torques ab fe c) as [c1 ext]. exact H1.
  - set (c1 := if _ || _ then ensure_Tw ab c else c).
    assert (H1 : inv ab c1) by (unfold c1; destruct (_ || _); auto; apply ensure_Tw_inv; auto).
    destruct (has_child_ok c1 H1) as (H2 & HT & _). cbn in *.
    set (c2 := if has_child ab then ensure_Tp ab c1 else c1) in *.
    pose proof (id_fwd_vel (c_Tp (ca_T c2)) (c_Tw (ca_T c2)) (is_vel (ca_vel c2)) o ddq fe (c_v (ca_vel c2)) (c_a (ca_rnea c2)) (c_f (ca_rnea c2)) HT (i_vel _ _ H2)) as X.
    destruct (for_up n _ _) as [[v a] f]. destruct (for_down n _ _) as [tau f']. cbn in *.
    apply inv_rnea, inv_vel; auto.
Qed.
Lemma forward_dynamics_inv tau fe o c : inv ab c -> inv ab (fst (forward_dynamics solve ab tau fe o c)).
Proof.
  intros H. unfold forward_dynamics. fold n.
  pose proof (inverse_dynamics_inv (vec n (fun _ => 0)) fe (IdOpts (o_grav o) (o_cc o) false (klit 1 100)) c H) as H1.
  destruct (inverse_dynamics ab _ _ _ c) as [c1 b]. cbn in *. apply ensure_crba_inv_inv; auto.
Qed.
Lemma aba_fwd_vel Tp Tw velc abac o fe v a Ia f : tp_ok Tp -> (velc = true -> forall i, i < n -> v i = velv ab i) -> o_cc o = true ->
  forall i, i < n -> fst (fst (fst (for_up n (aba_fwd_step ab Tp Tw velc abac o fe) (v, a, Ia, f)))) i = velv ab i.
Proof.
  intros HT Hv Ho.
  assert (X : (fun m (s : arr motion * arr motion * arr i6 * arr force) => (velc = true -> fst (fst (fst s)) = v) /\
     forall i, i < m -> fst (fst (fst s)) i = velv ab i) n
     (for_up n (aba_fwd_step ab Tp Tw velc abac o fe) (v, a, Ia, f))).
  { apply for_up_ind.
    - split; auto; lia.
    - intros i [[[v1 a1] Ia1] f1] Hi [Hvc IH]. cbn in *. rewrite Ho. rewrite orb_false_r. destruct velc; cbn.
      + rewrite Hvc by auto. split; auto. intros; apply Hv; auto; lia.
      + split; [discriminate|]. intros j Hj. apply upd_lt with (b := velv ab); auto. apply vel_at_cong; auto. }
  apply X.
Qed.
Lemma tp_ok_cond c b : inv ab c -> (has_child ab = true -> b = true) ->
  let c' := if b then ensure_Tp ab c else c in inv ab c' /\ tp_ok (c_Tp (ca_T c')).
Proof.
  intros H Hb. cbn. destruct b.
  - split; [apply ensure_Tp_inv; auto|]. intros i p Hi _. apply ensure_Tp_at; auto.
  - destruct (has_child ab) eqn:E; [discriminate (Hb eq_refl)|].
    destruct (has_child_ok c H) as (_ & X & _). rewrite E in X. auto.
Qed.
Lemma forward_dynamics_aba_inv tau fe o c : inv ab c -> inv ab (fst (forward_dynamics_aba ab tau fe o c)).
Proof.
  intros H. unfold forward_dynamics_aba. fold n.
  set (c1 := if has_ext ab fe then ensure_Tw ab c else c).
  assert (H1 : inv ab c1) by (unfold c1; destruct (has_ext ab fe); auto; apply ensure_Tw_inv; auto).
  destruct (tp_ok_cond c1 (has_child ab || (o_grav o && has_root ab)) H1) as (H2 & HT); [intros ->; reflexivity|]. cbn in *.
  set (c2 := if _ || _ then ensure_Tp ab c1 else c1) in *.
  pose proof (aba_fwd_vel (c_Tp (ca_T c2)) (c_Tw (ca_T c2)) (is_vel (ca_vel c2)) (is_aba (ca_aba c2)) o fe
    (c_v (ca_vel c2)) (c_a (ca_rnea c2)) (c_Ia (ca_aba c2)) (c_f (ca_rnea c2)) HT (i_vel _ _ H2)) as X.
  destruct (for_up n (aba_fwd_step _ _ _ _ _ _ _) _) as [[[v a] Ia] f].
  destruct (for_down n _ _) as [[[[Ia' h] d] f'] ddq].
  destruct (for_up n _ _) as [a' ddq']. cbn in *.
  apply inv_aba, inv_rnea, inv_vel; auto.
Qed.
Lemma ensure_Ainv_inv c : inv ab c -> inv ab (ensure_Ainv ab c).
Proof.
  intros H. unfold ensure_Ainv. destruct (is_Ainv _); auto.
  destruct (has_child_ok c H) as (H1 & HT & _). cbn in *.
  destruct (for_down _ _ _) as [[[Ia h] d] [X P]]. destruct (for_up _ _ _) as [X' A']. auto.
Qed.
Lemma id_rnea_inv ddq fe o c : inv ab c -> inv ab (id_rnea ab ddq fe o c).
Proof.
  intros H. unfold id_rnea.
  assert (H0 : inv ab (clear_crba c)) by (inv_same H; discriminate).
  pose proof (inverse_dynamics_inv ddq fe o _ H0) as H1.
  assert (E : ca_crba (fst (inverse_dynamics ab ddq fe o (clear_crba c))) = ca_crba (clear_crba c)).
  { clear. unfold inverse_dynamics. cbn [is_crba ca_crba clear_crba with_crba andb].
    assert (X : forall (b : bool) c, ca_crba (if b then ensure_Tw ab c else c) = ca_crba c).
    { intros [] c0; auto. destruct (sr_Tw c0) as [x ->]. reflexivity. }
    assert (Y : forall (b : bool) c, ca_crba (if b then ensure_Tp ab c else c) = ca_crba c).
    { intros [] c0; auto. destruct (sr_Tp c0) as [x ->]. reflexivity. }
    destruct (for_up _ _ _) as [[v a] f]. destruct (for_down _ _ _) as [tau f']. cbn. rewrite Y, X. reflexivity. }
  destruct (inverse_dynamics ab ddq fe o (clear_crba c)) as [c1 x]. cbn in *.
  destruct H1; constructor; cbn in *; auto; rewrite E; cbn; apply H.
Qed.
Lemma velocity_derivative_inv ddq fe o c : inv ab c -> inv ab (fst (velocity_derivative ab ddq fe o c)).
Proof.
  intros H. unfold velocity_derivative. destruct (negb _); auto.
  pose proof (id_rnea_inv ddq fe o c H) as H1. destruct (has_child_ok _ H1) as (H2 & _ & _). cbn in *.
  destruct (for_up _ _ _) as [[v a] f]. destruct (for_down _ _ _) as [tau f']. auto.
Qed.

(** Operational space *)
Lemma ops_inertia_inverse_inv J c : inv ab c -> inv ab (ops_inertia_inverse solve ab J c).
Proof. intros H. unfold ops_inertia_inverse. destruct (_ && _); auto. apply inv_op, ensure_crba_inv_inv; auto. Qed.
Lemma ops_inertia_inv J eps c : inv ab c -> inv ab (ops_inertia solve pinv ab J eps c).
Proof.
  intros H. unfold ops_inertia. destruct (_ && _); auto. destruct (pinv _ _). apply inv_op, ops_inertia_inverse_inv; auto.
Qed.
Lemma ops_jbar_inv J eps c : inv ab c -> inv ab (ops_jbar solve pinv ab J eps c).
Proof. intros H. unfold ops_jbar. destruct (_ && _); auto. apply inv_op, ops_inertia_inv; auto. Qed.
Lemma ops_cc_inv J l eps c c' x : inv ab c -> ops_cc solve pinv ab J l eps c = Ok (c', x) -> inv ab c'.
Proof.
  intros H. unfold ops_cc. destruct (negb _); [discriminate|]. destruct (idx _ _); [|discriminate].
  intros E; inversion E; subst. apply ensure_Tw_inv, ops_inertia_inv, ensure_cc_inv, ops_jbar_inv; auto.
Qed.
Lemma ops_gravity_inv J eps c : inv ab c -> inv ab (fst (ops_gravity solve pinv ab J eps c)).
Proof. intros H. cbn. apply ensure_grav_inv, ops_jbar_inv; auto. Qed.
Lemma ops_external_inv J fe eps c : inv ab c -> inv ab (fst (ops_external solve pinv ab J fe eps c)).
Proof.
  intros H. unfold ops_external. destruct (ext_torques_inv fe _ (ops_jbar_inv J eps c H)) as (H1 & _).
  destruct (ext_torques ab fe _). auto.
Qed.
Lemma ops_friction_inv J tau eps st c : inv ab c -> inv ab (fst (ops_friction solve pinv ab J tau eps st c)).
Proof. intros H. cbn. apply ops_jbar_inv; auto. Qed.
Lemma ops_inverse_dynamics_inv J ddx N fe e o c c' x : inv ab c ->
  ops_inverse_dynamics solve pinv ab J ddx N fe e o c = Ok (c', x) -> inv ab c'.
Proof.
  intros H. unfold ops_inverse_dynamics.
  set (Jx := match N with Some (_ :: _ as M) => _ | _ => J end).
  pose proof (ops_inertia_inv Jx (p_svd o) c H) as H1. set (c1 := ops_inertia _ _ _ _ _ _) in *.
  set (F1 := clip_force _ _). clearbody c1 F1.
  set (s2 := if e then _ else _).
  assert (H2 : inv ab (fst s2)).
  { unfold s2. destruct e; auto. pose proof (ops_external_inv Jx fe (p_svd o) c1 H1). destruct (ops_external _ _ _ _ _ _ _); auto. }
  destruct s2 as [c2 F2]. cbn in H2.
  set (s3 := if p_grav o then _ else _).
  assert (H3 : inv ab (fst s3)).
  { unfold s3. destruct (p_grav o); auto. pose proof (ops_gravity_inv Jx (p_svd o) c2 H2). destruct (ops_gravity _ _ _ _ _ _); auto. }
  destruct s3 as [c3 F3]. cbn in H3.
  set (s4 := if p_cc o then _ else _).
  assert (H4 : match s4 with Ok (c4, _) => inv ab c4 | _ => True end).
  { unfold s4. destruct (p_cc o); auto. unfold bind.
    destruct (ops_cc _ _ _ _ _ _ _) as [[c4 x4]| |] eqn:E; auto. eapply ops_cc_inv; eauto. }
  destruct s4 as [[c4 F4]| |]; cbn; try discriminate.
  set (s5 := if p_fric o then _ else _).
  assert (H5 : inv ab (fst s5)).
  { unfold s5. destruct (p_fric o); auto. apply ops_jbar_inv; auto. }
  destruct s5 as [c5 F5]. cbn in H5.
  destruct N as [M|]; intros E; inversion E; subst; auto. apply ops_jbar_inv; auto.
Qed.

Lemma oa_inertia_inverse_inv l off c : inv ab c -> inv ab (oa_inertia_inverse ab l off c).
Proof.
  intros H. unfold oa_inertia_inverse. destruct (_ && _); auto.
  assert (H1 : inv ab (ensure_Tp ab (ensure_Tw ab c))) by (apply ensure_Tp_inv, ensure_Tw_inv; auto).
  destruct (for_up _ _ _) as [Ia p]. destruct (for_down _ _ _) as [[[Ia' h] d] [p' u]]. auto.
Qed.
Lemma oa_inertia_inv l off eps c : inv ab c -> inv ab (oa_inertia pinv ab l off eps c).
Proof. intros H. unfold oa_inertia. destruct (_ && _); auto. apply inv_oa, oa_inertia_inverse_inv; auto. Qed.
Lemma occ_fwd_vel (AC : forall x y : K, x + y = y + x) Tp velc abac v a Ia f :
  tp_ok Tp -> (velc = true -> forall i, i < n -> v i = velv ab i) ->
  forall i, i < n -> fst (fst (fst (for_up n (occ_fwd_step ab Tp velc abac) (v, a, Ia, f)))) i = velv ab i.
Proof.
  intros HT Hv.
  assert (MC : forall a b, madd a b = madd b a).
  { intros [[] []] [[] []]; unfold madd, v3add; cbn. f_equal; f_equal; apply AC. }
  assert (X : (fun m (s : arr motion * arr motion * arr i6 * arr force) => (velc = true -> fst (fst (fst s)) = v) /\
     forall i, i < m -> fst (fst (fst s)) i = velv ab i) n
     (for_up n (occ_fwd_step ab Tp velc abac) (v, a, Ia, f))).
  { apply for_up_ind.
    - split; auto; lia.
    - intros i [[[v1 a1] Ia1] f1] Hi [Hvc IH]. cbn in *. destruct velc; cbn.
      + rewrite Hvc by auto. split; auto. intros; apply Hv; auto; lia.
      + split; [discriminate|]. intros j Hj. apply upd_lt with (b := velv ab); auto.
        rewrite <- (vel_at_cong Tp v1 i HT Hi IH). unfold vel_at. destruct (par ab i); auto. }
  apply X.
Qed.
Lemma oa_cc_inv (AC : forall x y : K, x + y = y + x) l off eps c : inv ab c -> inv ab (fst (oa_cc pinv ab l off eps c)).
Proof.
  intros H. unfold oa_cc. fold n. destruct (ensure_Tp_inv c H) as [H1 F1].
  set (c1 := ensure_Tp ab c) in *.
  assert (HT : tp_ok (c_Tp (ca_T c1))) by (intros i p Hi _; apply (i_Tp _ _ H1 F1); auto).
  pose proof (occ_fwd_vel AC (c_Tp (ca_T c1)) (is_vel (ca_vel c1)) (is_aba (ca_aba c1)) (c_v (ca_vel c1)) (c_a (ca_rnea c1))
    (c_Ia (ca_aba c1)) (c_f (ca_rnea c1)) HT (i_vel _ _ H1)) as X.
  destruct (for_up n _ _) as [[[v a] Ia] f]. destruct (for_down n _ _) as [[[[Ia' h] d] f'] ddq]. cbn [fst snd] in *.
  apply oa_inertia_inv, ensure_Tw_inv, inv_aba, inv_rnea, inv_vel; auto.
Qed.
Lemma oa_gravity_inv l off fe eps c : inv ab c -> inv ab (fst (oa_gravity pinv ab l off fe eps c)).
Proof.
  intros H. unfold oa_gravity.
  assert (H1 : inv ab (ensure_Tp ab (ensure_Tw ab c))) by (apply ensure_Tp_inv, ensure_Tw_inv; auto).
  destruct (for_up _ _ _) as [Ia f]. destruct (for_down _ _ _) as [[[[Ia' h] d] f'] ddq]. cbn [fst].
  apply oa_inertia_inv, inv_aba, inv_rnea; auto.
Qed.

End Queries.
End Cache.
