(** Not-a-number spreads (C43) *)
From Coq Require Import List Arith ZArith Bool Lia SpecFloat.
From Verif Require Import Scalar Base Spatial Joint Body Kin InvDyn FwdDyn Opspace OpspaceAba Deriv Sim Ops Instances SpecGeo Specs SpecCache SpecKin SpecDyn SpecAba SpecNan TreeProofs JointProofs CacheProofs CacheOps WorldProofs DynApi AbaOps AbaCache AbaApi.
Import ListNotations.
Local Open Scope k_scope.

Class Absorb (S : Scal) := {
  bad : K;
  zn : K -> Prop;
  b_add_l : forall x, bad + x = bad; b_add_r : forall x, x + bad = bad;
  b_sub_l : forall x, bad - x = bad; b_sub_r : forall x, x - bad = bad;
  b_mul_l : forall x, bad * x = bad; b_mul_r : forall x, x * bad = bad;
  b_div_l : forall x, bad / x = bad; b_div_r : forall x, x / bad = bad;
  b_opp : - bad = bad;
  z_zero : zn 0; z_bad : zn bad;
  z_of : forall x, keq x 0 = true -> zn x;
  z_add : forall x y, zn x -> zn y -> zn (x + y);
  z_mul_l : forall x y, zn x -> zn (x * y);
  z_mul_r : forall x y, zn y -> zn (x * y);
  z_div : forall x y, zn x -> zn y -> x / y = bad;
  z_sum : forall x y, keq x 0 = true -> keq y 0 = true -> keq (x + y) 0 = true }.

#[global] Instance F64_absorb sn cs tr : Absorb (F64of sn cs tr).
Proof.
  refine {| bad := (S754_nan : @K (F64of sn cs tr)); zn := fun x : @K (F64of sn cs tr) => match x : spec_float with S754_zero _ | S754_nan => True | _ => False end |};
  cbn; try exact Logic.I; try reflexivity; try (intros [[]|[]| |[]]; cbn; auto; discriminate); try (intros [[]|[]| |[]] [[]|[]| |[]]; cbn; auto; try tauto; try discriminate).
Defined.

Section Nan.
Context {S : Scal} {AB : Absorb S}.
Definition badv : v3 := V3 bad bad bad.
Definition badm : m3 := M3 badv badv badv.
Definition badf : force := Frc badv badv.
Definition badmo : motion := Mot badv badv.
Definition badi : i6 := I6 badm badm badm badm.
Ltac bb := repeat first [rewrite b_add_l|rewrite b_add_r|rewrite b_sub_l|rewrite b_sub_r|rewrite b_mul_l|rewrite b_mul_r|rewrite b_div_l|rewrite b_div_r|rewrite b_opp].
Ltac bx := intros; repeat match goal with H : icom ?I = badv |- _ => destruct I; cbn in H; subst end; repeat match goal with x : inertia |- _ => destruct x | x : i6 |- _ => destruct x | x : iso |- _ => destruct x | x : motion |- _ => destruct x | x : force |- _ => destruct x end;
  repeat match goal with x : m3 |- _ => destruct x end; repeat match goal with x : v3 |- _ => destruct x end;
  cbn in *; subst; unfold badi, badm, badf, badmo, badv in *; unfold mdot, mact, madd, mscale, imul, iact, iso_app, iadd, i6mul, i6act, i6add, i6sub, double_cross, m3colcross, m3rowcross, m3outer, m3sub, m3add, m3scale, m3mul, m3tr, m3mulv, v3sub, v3add, v3cross, v3dot, v3scale, v3div, v3opp in *; cbn in *; bb; try reflexivity.
Definition znv (v : v3) := zn (vx v) /\ zn (vy v) /\ zn (vz v).
Definition znf (f : force) := znv (flin f) /\ znv (fang f).
Ltac zz := repeat first [apply z_add|apply z_zero|apply z_bad|(apply z_mul_l; solve [zz])|(apply z_mul_r; solve [zz])|assumption].

Lemma badf_zn : znf badf. Proof. repeat split; apply z_bad. Qed.
Lemma dot_bad m : mdot m badf = bad. Proof. bx. Qed.
Lemma dot_bad_l f : mdot badmo f = bad. Proof. bx. Qed.
Lemma dot_zero f : zn (mdot mzero f). Proof. destruct f as [[] []]. cbn. zz. Qed.
Lemma dot_zn m f : znf f -> zn (mdot m f).
Proof. destruct f as [[] []]. intros ((?&?&?)&(?&?&?)). cbn in *. zz. Qed.
Lemma madd_bad m : madd m badmo = badmo. Proof. bx. Qed.
Lemma madd_bad_l m : madd badmo m = badmo. Proof. bx. Qed.
Lemma mact_bad T : mact T badmo = badmo. Proof. bx. Qed.
Lemma mscale_bad m : mscale bad m = badmo. Proof. bx. Qed.
Lemma imul_bad I m : icom I = badv -> imul I m = badf. Proof. bx. Qed.
Lemma iact_bad T I : icom I = badv -> icom (iact T I) = badv. Proof. bx. Qed.
Lemma iadd_bad_l I J : icom I = badv -> icom (iadd I J) = badv. Proof. bx. Qed.
Lemma iadd_bad_r I J : icom J = badv -> icom (iadd I J) = badv. Proof. bx. Qed.
Lemma mm_l B : m3mul badm B = badm. Proof. bx. Qed.
Lemma mm_r B : m3mul B badm = badm. Proof. bx. Qed.
Lemma ms_l B : m3sub badm B = badm. Proof. bx. Qed.
Lemma ms_r B : m3sub B badm = badm. Proof. bx. Qed.
Lemma ma_l B : m3add badm B = badm. Proof. bx. Qed.
Lemma ma_r B : m3add B badm = badm. Proof. bx. Qed.
Lemma mk_r k : m3scale k badm = badm. Proof. bx. Qed.
Lemma rc_l t : m3rowcross badm t = badm. Proof. bx. Qed.
Lemma cc_l t : m3colcross badm t = badm. Proof. bx. Qed.
Lemma vsub_l v : v3sub badv v = badv. Proof. bx. Qed.
Lemma dc_bad : double_cross badv = badm. Proof. bx. Qed.
Lemma mv_l v : m3mulv badm v = badv. Proof. bx. Qed.
Lemma va_l v : v3add badv v = badv. Proof. bx. Qed.
Lemma i6mul_bad m : i6mul badi m = badf.
Proof. unfold i6mul, badi, badf. cbn. rewrite !mv_l, !va_l. reflexivity. Qed.
Lemma i6mul_zero A : znf (i6mul A mzero).
Proof. destruct A as [[[] [] []] [[] [] []] [[] [] []] [[] [] []]]. repeat split; cbn; zz. Qed.
Lemma i6act_bad T : i6act T badi = badi.
Proof. unfold i6act, badi. cbn [b11 b12 b21 b22]. cbv zeta. rewrite !mm_l, !rc_l, !ms_r, !mm_r, !ms_l. reflexivity. Qed.
Lemma i6add_bad A : i6add A badi = badi. Proof. unfold i6add, i6sub, badi. cbn. rewrite !ma_r. reflexivity. Qed.
Lemma i6add_bad_l A : i6add badi A = badi. Proof. unfold i6add, i6sub, badi. cbn. rewrite !ma_l. reflexivity. Qed.
Lemma i6sub_bad A : i6sub A badi = badi. Proof. unfold i6add, i6sub, badi. cbn. rewrite !ms_r. reflexivity. Qed.
Lemma outer_bad h d : znf h -> zn d -> i6outer h d = badi.
Proof.
  destruct h as [[] []]. intros ((?&?&?)&(?&?&?)) ?. cbn in *. unfold i6outer. cbn. unfold v3div. cbn. rewrite !z_div by assumption.
  unfold badi, badm, m3outer. cbn. unfold v3scale. cbn. bb. reflexivity.
Qed.

Definition nomass (I : inertia) := keq (imass I) 0 = true.
Lemma iadd_none I J : nomass I -> nomass J -> nomass (iadd I J) /\ icom (iadd I J) = badv /\ iI (iadd I J) = badm.
Proof.
  unfold nomass. intros H1 H2. split; [apply z_sum; assumption|].
  assert (E : icom (iadd I J) = badv).
  { destruct I as [m [] c], J as [m' [] c']. cbn in *. unfold v3div, v3add, v3scale. cbn.
    rewrite !z_div; [reflexivity| | | | | |]; repeat first [apply z_add|apply z_of; assumption|apply z_mul_l]. }
  split; [exact E|]. change (iI (iadd I J)) with (m3sub (m3sub (m3add (iI I) (iI J)) (m3scale (imass I) (double_cross (v3sub (icom (iadd I J)) (icom I)))))
    (m3scale (imass J) (double_cross (v3sub (icom (iadd I J)) (icom J))))). rewrite E. rewrite !vsub_l, !dc_bad, !mk_r, !ms_r. reflexivity.
Qed.

(** *** The composite inertias *)
Section Tree.
Variable ab : body.
Hypothesis T : tree_ok ab.
Notation n := (ab_dof ab).

Lemma crba_up_diag Tp i a : forall l st, (forall j, In j l -> j <> i) ->
  snd (fold_left (crba_up ab Tp i) l st) a a = snd st a a.
Proof.
  induction l as [|j l IH]; intros [[ch f] A] H; [reflexivity|]. cbn [fold_left]. rewrite IH by (intros; apply H; cbn; auto).
  cbn. pose proof (H j (or_introl eq_refl)). unfold upd2.
  destruct (Nat.eqb_spec a j), (Nat.eqb_spec a i); subst; cbn; auto; congruence.
Qed.
Lemma up_tail_lt i j : (i < n)%nat -> In j (tl (up_chain ab i)) -> (j < i)%nat.
Proof.
  intros Hi H. change (tl (up_chain ab i)) with (chain ab i (par ab i)) in H.
  destruct (par ab i) as [p|] eqn:E; [|destruct i; destruct H].
  pose proof (tree_par _ _ _ T Hi E). rewrite chain_anc in H by (auto; lia). apply in_rev in H.
  apply tree_in_anc_le in H; auto; lia.
Qed.

Lemma chain_child p (Hp : (p < n)%nat) l : (l < n)%nat -> ancb ab l p = true -> l = p \/ exists m, (m < n)%nat /\ par ab m = Some l /\ ancb ab m p = true.
Proof.
  intros Hl. assert (X : forall q, (q <= p)%nat -> ancb ab q p = true -> ancb ab l q = true -> l = q \/ exists m, (m < n)%nat /\ par ab m = Some l /\ ancb ab m p = true).
  { induction q as [q IH] using lt_wf_ind. intros Hq H1 H2. rewrite (ancb_step ab T) in H2 by lia. destruct (par ab q) as [r|] eqn:E.
    - apply orb_true_iff in H2. destruct H2 as [H2|H2]; [left; apply Nat.eqb_eq; auto|].
      pose proof (tree_par ab q r T ltac:(lia) E). destruct (IH r) as [-> | H3]; try lia; auto.
      + apply (ancb_trans ab T r q p); auto. rewrite (ancb_step ab T), E by lia. rewrite (ancb_self ab T r) by lia. apply orb_true_r.
      + right. exists q. repeat split; auto. lia.
    - left. apply Nat.eqb_eq; auto. }
  intros H. apply (X p); auto. apply ancb_self; auto.
Qed.

Section Massless.
Variables (p c : nat) (Tp : arr iso).
Hypothesis (Hp : (p < n)%nat) (Hc : (c < n)%nat) (Epc : par ab c = Some p).
Hypothesis W : forall k, (k < n)%nat -> ancb ab p k = true -> nomass (inertia_at ab k).

Definition crba_ok k (s : arr inertia * arr2 K) : Prop :=
  (forall l, (l < n)%nat -> ancb ab p l = true -> nomass (fst s l)) /\
  (forall i, (k <= i < n)%nat -> par ab i = Some p -> icom (fst s p) = badv) /\
  (forall i l, (k <= i < n)%nat -> par ab i = Some l -> ancb ab i p = true -> icom (fst s l) = badv) /\
  (forall l, (k <= l < n)%nat -> ancb ab l p = true -> snd s l l = bad).

Lemma anc_child i l : (i < n)%nat -> par ab i = Some l -> ancb ab p l = true -> ancb ab p i = true.
Proof. intros Hi E H. rewrite (ancb_step ab T) by auto. rewrite E, H. apply orb_true_r. Qed.

Lemma crba_bad i : (i < n)%nat -> ancb ab i p = true -> snd (for_down n (crba_step ab Tp) (inertia_at ab, fun _ _ => 0)) i i = bad.
Proof.
  enough (X : crba_ok 0 (for_down n (crba_step ab Tp) (inertia_at ab, fun _ _ => 0))) by (intros Hi H; apply X; auto; lia).
  apply for_down_ind.
  { repeat split; intros; try lia. cbn. apply W; auto. }
  clear i. intros i [Ic A] Hi (H1 & H2 & H3 & H4). cbn in H1, H2, H3, H4.
  unfold crba_step.
  set (Ic' := match par ab i with None => Ic | Some q => upd Ic q (iadd (Ic q) (iact (Tp i) (Ic i))) end).
  assert (Ei : Ic' i = Ic i).
  { unfold Ic'. destruct (par ab i) as [q|] eqn:E; auto. pose proof (tree_par _ _ _ T Hi E). unfold upd. destruct (Nat.eqb_spec i q); [lia|auto]. }
  assert (On : ancb ab i p = true -> icom (Ic i) = badv).
  { intros Ha. destruct (chain_child p Hp i Hi Ha) as [-> | (m & Hm & Em & Am)].
    - apply (H2 c); auto. pose proof (tree_par _ _ _ T Hc Epc). lia.
    - pose proof (tree_par _ _ _ T Hm Em). apply (H3 m); auto. }
  pose proof (fun a => crba_up_diag Tp i a (tl (up_chain ab i)) (i, imul (Ic' i) (sub_at ab i), upd2 A i i (mdot (sub_at ab i) (imul (Ic' i) (sub_at ab i))))
                (fun j Hj => ltac:(pose proof (up_tail_lt i j Hi Hj); lia))) as D.
  destruct (fold_left _ _ _) as [[x y] A']. cbn in D.
  split; [|split; [|split]]; cbn [fst snd].
  - intros l Hl Hpl. unfold Ic'. destruct (par ab i) as [q|] eqn:E; [|auto]. unfold upd. destruct (Nat.eqb_spec l q) as [->|]; auto.
    apply iadd_none; auto. apply (H1 i); auto. eapply anc_child; eauto.
  - intros j Hj Ej. unfold Ic'. destruct (par ab i) as [q|] eqn:E.
    + unfold upd. destruct (Nat.eqb_spec p q) as [<-|].
      * apply iadd_none; [apply H1; auto; apply ancb_self; auto|apply (H1 i); auto; eapply anc_child; eauto; apply ancb_self; auto].
      * apply (H2 j); auto. assert (j <> i) by congruence. lia.
    + apply (H2 j); auto. assert (j <> i) by congruence. lia.
  - intros j l Hj Ej Aj. destruct (Nat.eq_dec j i) as [->|].
    + unfold Ic'. rewrite Ej. unfold upd. rewrite Nat.eqb_refl. apply iadd_bad_r, iact_bad. auto.
    + unfold Ic'. assert (icom (Ic l) = badv) by (apply (H3 j); auto; lia). destruct (par ab i) as [q|]; auto.
      unfold upd. destruct (Nat.eqb_spec l q) as [->|]; auto. apply iadd_bad_l; auto.
  - intros l Hl Al. rewrite D. unfold upd2. destruct (Nat.eqb_spec l i) as [->|].
    + cbn. rewrite imul_bad by (rewrite Ei; auto). apply dot_bad.
    + cbn. apply H4; auto. lia.
Qed.
End Massless.
(** *** The articulated-body algorithm *)
Section Fixed.
Variables (u : nat) (Tp : arr iso).
Hypothesis (Hu : (u < n)%nat) (Su : sub_at ab u = mzero).

Definition aba_bad_at k (s : arr i6 * arr force * arr K * arr force * arr K) : Prop :=
  let '(Ia, h, d, f, ddq) := s in
  (forall l, (k <= l < n)%nat -> ancb ab l u = true -> znf (h l) /\ zn (d l)) /\
  (forall i l, (k <= i < n)%nat -> par ab i = Some l -> ancb ab i u = true -> Ia l = badi).
Lemma aba_back_bad o tau a s : aba_bad_at 0 (for_down n (aba_back_step ab Tp false o tau a) s).
Proof.
  apply for_down_ind.
  { destruct s as [[[[Ia h] d] f] ddq]. split; intros; lia. }
  clear s. intros i [[[[Ia h] d] f] ddq] Hi (H1 & H2). unfold aba_back_step, aba_inertia.
  set (hi := i6mul (Ia i) (sub_at ab i)). set (di := mdot (sub_at ab i) hi).
  assert (Z : ancb ab i u = true -> znf hi /\ zn di).
  { intros Ha. destruct (chain_child u Hu i Hi Ha) as [-> | (m & Hm & Em & Am)].
    - unfold di, hi. rewrite Su. split; [apply i6mul_zero|apply dot_zero].
    - pose proof (tree_par _ _ _ T Hm Em). assert (E : Ia i = badi) by (apply (H2 m); auto).
      unfold di, hi. rewrite E, i6mul_bad, dot_bad. split; [apply badf_zn|apply z_bad]. }
  assert (Zall : forall l, (i <= l < n)%nat -> ancb ab l u = true -> znf (upd h i hi l) /\ zn (upd d i di l)).
  { intros l Hl Al. unfold upd. destruct (Nat.eqb_spec l i) as [->|]; auto. apply H1; auto. lia. }
  destruct (par ab i) as [p|] eqn:E; cbn [aba_bad_at]; (split; [exact Zall|]).
  - pose proof (tree_par _ _ _ T Hi E). intros j l Hj Ej Aj.
    destruct (Nat.eq_dec j i) as [->|].
    + assert (l = p) as -> by congruence. unfold upd at 1. rewrite Nat.eqb_refl.
      destruct (Z Aj). rewrite outer_bad, i6sub_bad, i6act_bad by auto. apply i6add_bad.
    + assert (X : Ia l = badi) by (apply (H2 j); auto; lia). unfold upd at 1. destruct (Nat.eqb_spec l p) as [->|].
      * unfold upd at 1. destruct (Nat.eqb_spec p i); [lia|]. rewrite X. apply i6add_bad_l.
      * unfold upd. destruct (Nat.eqb_spec l i) as [->|]; auto.
        pose proof (tree_par ab j i T ltac:(lia) Ej). assert (Ai : ancb ab i u = true).
        { apply (ancb_trans ab T i j u); auto. rewrite (ancb_step ab T), Ej by lia. rewrite (ancb_self ab T i) by lia. apply orb_true_r. }
        destruct (Z Ai). rewrite outer_bad by auto. apply i6sub_bad.
  - intros j l Hj Ej Aj. apply (H2 j); auto. assert (j <> i) by congruence. lia.
Qed.

Variable r : nat.
Hypothesis (Hr : (r < n)%nat) (Er : par ab r = None) (Aru : ancb ab r u = true).
Lemma aba_last_bad o h d s : znf (h r) -> zn (d r) ->
  forall l, (l < n)%nat -> ancb ab r l = true -> snd (for_up n (aba_last_step ab Tp o h d) s) l = bad.
Proof.
  intros Zh Zd.
  enough (X : let t := for_up n (aba_last_step ab Tp o h d) s in forall l, (l < n)%nat -> ancb ab r l = true -> fst t l = badmo /\ snd t l = bad)
    by (intros l Hl Al; apply X; auto).
  apply (for_up_ind (fun k t => forall l, (l < k)%nat -> ancb ab r l = true -> fst t l = badmo /\ snd t l = bad)).
  { intros; lia. }
  clear s. intros i [a ddq] Hi IH l Hl Al. cbn in IH. unfold aba_last_step. cbn [fst snd].
  destruct (Nat.eq_dec l i) as [->|]; [|unfold upd; destruct (Nat.eqb_spec l i); [contradiction|apply IH; auto; lia]].
  unfold upd. rewrite !Nat.eqb_refl.
  enough (X : ddq i - mdot (match par ab i with None => if o_grav o then mact (iso_inv (Tp i)) (mopp (ab_g ab)) else mzero | Some p => madd (a i) (mact (iso_inv (Tp i)) (a p)) end) (h i) / d i = bad)
    by (rewrite X, mscale_bad, madd_bad; auto).
  rewrite (ancb_step ab T) in Al by auto. destruct (par ab i) as [p|] eqn:E.
  - apply orb_true_iff in Al. destruct Al as [Al|Al]; [apply Nat.eqb_eq in Al; congruence|].
    pose proof (tree_par _ _ _ T Hi E). destruct (IH p) as [-> _]; auto. rewrite mact_bad, madd_bad, dot_bad_l, b_div_l. apply b_sub_r.
  - apply Nat.eqb_eq in Al. subst i. rewrite z_div; [apply b_sub_r| |auto]. apply dot_zn; auto.
Qed.
End Fixed.

Lemma aba_value u r tau fe o c : (u < n)%nat -> sub_at ab u = mzero -> (r < n)%nat -> par ab r = None -> ancb ab r u = true -> is_aba (ca_aba c) = false ->
  forall l, (l < n)%nat -> ancb ab r l = true -> snd (forward_dynamics_aba ab tau fe o c) l = bad.
Proof.
  intros Hu Su Hr Er Aru Ab l Hl Al. unfold forward_dynamics_aba.
  set (c1 := if has_ext ab fe then ensure_Tw ab c else c). set (c2 := if has_child ab || _ then ensure_Tp ab c1 else c1).
  assert (A1 : is_aba (ca_aba c1) = false).
  { unfold c1. destruct (has_ext ab fe); auto. unfold ensure_Tw. destruct (is_Tw _); auto. unfold ensure_Tp. destruct (is_Tp _); auto. }
  assert (A2 : is_aba (ca_aba c2) = false).
  { unfold c2. destruct (_ || _); auto. unfold ensure_Tp. destruct (is_Tp _); auto. }
  rewrite A2. destruct (for_up n (aba_fwd_step _ _ _ _ _ _ _) _) as [[[v a] Ia] f].
  pose proof (aba_back_bad u (c_Tp (ca_T c2)) Hu Su o tau a (Ia, c_h (ca_aba c2), c_d (ca_aba c2), f, fun _ => 0)) as X.
  destruct (for_down n _ _) as [[[[Ia' h] d] f'] ddq]. destruct X as [X _]. destruct (X r ltac:(lia) Aru) as [Zh Zd].
  pose proof (aba_last_bad u (c_Tp (ca_T c2)) Hu r Hr Er o h d (a, ddq) Zh Zd l Hl Al) as Y.
  destruct (for_up n _ _) as [a' ddq']. exact Y.
Qed.
Lemma has_base i : (i < n)%nat -> exists r, (r < n)%nat /\ par ab r = None /\ ancb ab r i = true.
Proof.
  induction i as [i IH] using lt_wf_ind. intros Hi. destruct (par ab i) as [p|] eqn:E.
  - pose proof (tree_par _ _ _ T Hi E). destruct (IH p) as (r & R1 & R2 & R3); auto; [lia|]. exists r. repeat split; auto.
    rewrite (ancb_step ab T), E, R3 by auto. apply orb_true_r.
  - exists i. repeat split; auto. apply ancb_self; auto.
Qed.
End Tree.
End Nan.

(** ** At the interface *)
Section Api.
Variables (sn cs : f64 -> f64) (tr : f64 -> Z).
Notation F := (F64of sn cs tr).
Variables (solve : list (list (@K F)) -> list (@K F) -> list (@K F)) (pinv : list (list (@K F)) -> @K F -> list (list (@K F)) * bool).
Lemma c43_sum (I J : @inertia F) : no_mass sn cs tr I -> no_mass sn cs tr J ->
  no_mass sn cs tr (iadd I J) /\ icom (iadd I J) = nan_vec sn cs tr /\ iI (iadd I J) = nan_mat sn cs tr.
Proof. exact (@iadd_none F (F64_absorb sn cs tr) I J). Qed.
Lemma c43_inertia h (ab : @body F) p c i : reached solve pinv h ab -> base_fixed false h = true -> (p < ab_dof ab)%nat -> (c < ab_dof ab)%nat -> par ab c = Some p ->
  (forall k, (k < ab_dof ab)%nat -> In p (anc_at ab k) -> weightless sn cs tr ab k) -> In i (anc_at ab p) ->
  exists A, outcome (ask solve pinv QInertia ab) = Ok (AMat A) /\ @entry F A i i = nan sn cs tr.
Proof.
  intros R B Hp Hc Ec W Hi. destruct (reached_wfc solve pinv h ab R B) as [T V].
  assert (Li : (i < ab_dof ab)%nat) by (apply tree_in_anc_le in Hi; auto; lia).
  exists (mat (ab_dof ab) (ab_dof ab) (Av ab)). split.
  { cbn [ask]. rewrite outcome_wrap, (out_Inertia ab T V). reflexivity. }
  rewrite entry_mat by auto. apply (@crba_bad F (F64_absorb sn cs tr) ab T p c); auto.
  - intros k Hk Ak. apply ancb_in in Ak. destruct (W k Hk Ak) as [M L]. unfold inertia_at. rewrite L. exact M.
  - apply ancb_in. auto.
Qed.
Lemma c43_aba h (ab : @body F) tau fe o u r l : reached solve pinv h ab -> base_fixed false h = true -> unmixed h = true -> List.length tau = ab_dof ab ->
  (u < ab_dof ab)%nat -> jsub (rb_joint (rb_at ab u)) = mzero -> (l < ab_dof ab)%nat -> In r (anc_at ab u) -> In r (anc_at ab l) ->
  exists ddq, outcome (ask solve pinv (QAba tau fe o) ab) = Ok (AVec ddq) /\ @coef F ddq l = nan sn cs tr.
Proof.
  intros R B U Ht Hu Su Hl Ru Rl. destruct (reached_wfc solve pinv h ab R B) as [T V].
  destruct V as (c0 & E0 & _).
  rewrite (c18_fresh solve pinv h ab tau fe o c0 R B U). cbn [ask].
  exists (vec (ab_dof ab) (snd (forward_dynamics_aba (cold ab c0) tau fe o (all_clear c0)))). split.
  - rewrite outcome_wrap. unfold q_ForwardDynamicsAba. change (ab_dof (cold ab c0)) with (ab_dof ab). rewrite (proj2 (Nat.eqb_eq _ _) Ht).
    rewrite outcome_on_cache. cbn [cold ab_cache set_cache]. destruct (forward_dynamics_aba _ _ _ _ _). reflexivity.
  - assert (Lr : (r < ab_dof ab)%nat) by (apply tree_in_anc_le in Ru; auto; lia).
    destruct (has_base ab T r Lr) as (b & Hb & Eb & Ab). apply ancb_in in Ru, Rl.
    rewrite coef_vec by auto. apply (@aba_value F (F64_absorb sn cs tr) (cold ab c0) (cold_tree _ _ T) u b); auto.
    + exact (ancb_trans ab T b r u Hu Ab Ru).
    + exact (ancb_trans ab T b r l Hl Ab Rl).
Qed.
End Api.

(** Exact arithmetic: the row and the column of a joint that cannot move vanish. *)
Section Exact.
Context {S : Scal} {L : ScalLaws S}.
Variables (solve : list (list K) -> list K -> list K) (pinv : list (list K) -> K -> list (list K) * bool).
Add Field kfe : (@kfield S L).
Lemma c43_singular h ab u j : reached solve pinv h ab -> base_fixed false h = true -> rigid_robot ab ->
  (u < ab_dof ab)%nat -> jsub (rb_joint (rb_at ab u)) = mzero -> (j < ab_dof ab)%nat ->
  exists A, outcome (ask solve pinv QInertia ab) = Ok (AMat A) /\ entry A u j = 0 /\ entry A j u = 0.
Proof.
  intros R B P Hu Su Hj. destruct (reached_wfc solve pinv h ab R B) as [T V].
  exists (mat (ab_dof ab) (ab_dof ab) (Av ab)). split.
  { cbn [ask]. rewrite outcome_wrap, (out_Inertia ab T V). reflexivity. }
  rewrite !entry_mat by auto.
  assert (E : Sw ab u = mzero).
  { unfold Sw, sub_at. rewrite Su. generalize (twv ab u). intros [[[] [] []] []]. unfold mact, mzero, v3zero. cbn. unfold v3sub, v3cross, m3mulv, v3dot. cbn. repeat f_equal; ring. }
  assert (D : forall f, mdot mzero f = 0) by (intros [[] []]; unfold mdot, v3dot; cbn; ring).
  assert (M : forall I m, mdot m (imul I mzero) = 0).
  { intros [m [] [[] [] []]] [[] []]. unfold mdot, imul, m3mulv. cbn. unfold v3add, v3sub, v3cross, v3scale, v3zero, v3dot. cbn. unfold v3dot. cbn. ring. }
  rewrite !(Av_spec ab T P) by auto. unfold Aspec. rewrite E.
  split; destruct (ancb ab j u), (ancb ab u j); rewrite ?D, ?M; reflexivity.
Qed.
End Exact.
Lemma undef_still {S : Scal} calls j : joint_run calls joint_default = Some j -> jtyp j = JUndef -> jsub j = mzero.
Proof. intros H E. rewrite (joint_run_unit calls j H), E. reflexivity. Qed.
