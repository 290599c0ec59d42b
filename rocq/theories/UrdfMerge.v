(** Lemmas about merging fixed joints (urdf.cc:391-435). *)
From Coq Require Import List Arith ZArith Bool String Lia Permutation.
From Verif Require Import Scalar Base Spatial SpecGeo SpatialProofs Joint Body Json Urdf SpecDyn AbaLaws SpecUrdf UrdfProofs.
Import ListNotations.

Section UrdfMerge.
Context {S : Scal}.
Local Open Scope k_scope.
Notation rmap := (@rmap S).

Lemma rput_eq (m : rmap) k v : rput m k v k = Some v.
Proof. unfold rput. now rewrite String.eqb_refl. Qed.
Lemma rput_ne (m : rmap) k v n : n <> k -> rput m k v n = m n.
Proof. intros H. unfold rput. destruct (String.eqb_spec n k); congruence. Qed.

Lemma link_some (m : rmap) n rb p : m n = Some (rb, p) -> link m n = rb /\ parent m n = p.
Proof. unfold link, parent. intros ->. auto. Qed.
Lemma some_link (m : rmap) n : m n <> None -> m n = Some (link m n, parent m n).
Proof. unfold link, parent. destruct (m n) as [[rb p]|]; congruence. Qed.

(** The links still there: [root] and [t]. *)
Record tree (m : rmap) (root : string) (t : list string) : Prop := {
  tr_distinct : NoDup (root :: t);
  tr_first : pfrom m [root] t;
  tr_in : forall n, In n (root :: t) -> m n <> None;
  tr_name : forall n, In n (root :: t) -> rb_name (link m n) = n;
  tr_root : parent m root = ""%string;
  tr_nonempty : ~ In ""%string (root :: t)
}.

(** Result of merging [n] into its parent. *)
Record merged (m : rmap) (root : string) (d : list string) (n : string) (t : list string) (m1 : rmap) : Prop := {
  mg_fixed : fixed_joint (link m n);
  mg_up : In (parent m n) (root :: d);
  mg_parent : m1 (parent m n) = Some
    (Rb (rb_name (link m (parent m n))) (rb_graphics (link m (parent m n)) ++ moved_graphics (rb_T (link m n)) (rb_graphics (link m n)))
        (rb_id (link m (parent m n))) (rb_parent (link m (parent m n))) (rb_T (link m (parent m n)))
        (iadd (rb_inertia (link m (parent m n))) (iact (rb_T (link m n)) (rb_inertia (link m n)))) (rb_joint (link m (parent m n))),
     parent m (parent m n));
  mg_child : forall c, In c t -> parent m c = n -> m1 c = Some (rb_with_T (iso_mul (rb_T (link m n)) (rb_T (link m c))) (link m c), parent m n);
  mg_other : forall c, c <> parent m n -> (In c t -> parent m c <> n) -> m1 c = m c
}.
Inductive steps (root : string) : rmap -> list string -> rmap -> list string -> Prop :=
| steps_refl m l : steps root m l m l
| steps_one m d n t m1 m2 l : merged m root d n t m1 -> steps root m1 (d ++ t) m2 l -> steps root m (d ++ n :: t) m2 l.

Lemma transfer_spec name T p : forall l (m m' : rmap), NoDup l -> transfer m name T p l = Ok m' ->
  (forall c, In c l -> m c <> None) /\
  (forall c, In c l -> parent m c = name -> m' c = Some (rb_with_T (iso_mul T (rb_T (link m c))) (link m c), p)) /\
  (forall c, (In c l -> parent m c <> name) -> m' c = m c).
Proof.
  induction l as [|c t IH]; intros m m' N E; cbn [transfer] in E.
  - injection E as <-. repeat split; auto; intros c [].
  - inversion N as [|? ? Nc Nt]; subst. unfold r_at in E. destruct (m c) as [[rb q]|] eqn:Ec; [|discriminate]. cbn [lookup_or_throw bind] in E.
    destruct (link_some _ _ _ _ Ec) as [Lc Pc].
    destruct (IH _ _ Nt E) as (I1 & I2 & I3).
    assert (Ne : forall x, In x t -> x <> c) by (intros x X ->; auto).
    destruct (String.eqb_spec q name) as [Q|Q].
    + assert (Same : forall x, x <> c -> rput m c (rb_with_T (iso_mul T (rb_T rb)) rb, p) x = m x) by (intros; now apply rput_ne).
      assert (SameP : forall x, x <> c -> parent (rput m c (rb_with_T (iso_mul T (rb_T rb)) rb, p)) x = parent m x).
      { intros x X. unfold parent. now rewrite Same. }
      assert (SameL : forall x, x <> c -> link (rput m c (rb_with_T (iso_mul T (rb_T rb)) rb, p)) x = link m x).
      { intros x X. unfold link. now rewrite Same. }
      split; [|split].
      * intros x [<-|X]; [congruence|]. rewrite <- Same by auto. auto.
      * intros x [<-|X] Px.
        -- rewrite I3 by tauto. rewrite rput_eq, Lc. reflexivity.
        -- rewrite I2; auto. ++ now rewrite SameL by auto. ++ now rewrite SameP by auto.
      * intros x X. destruct (String.eqb_spec x c) as [->|Nx].
        -- exfalso. apply X; [now left|]. congruence.
        -- rewrite I3, Same; auto. intros H. rewrite SameP; auto. apply X. now right.
    + split; [|split].
      * intros x [<-|X]; [congruence|auto].
      * intros x [<-|X] Px; [exfalso; congruence|]. auto.
      * intros x X. apply I3. intros H. apply X. now right.
Qed.
Lemma transfer_ok name T p : forall l (m : rmap), (forall c, In c l -> m c <> None) -> exists m', transfer m name T p l = Ok m'.
Proof.
  induction l as [|c t IH]; intros m H; cbn [transfer]; [eauto|].
  unfold r_at. rewrite (some_link m c) by (apply H; now left). cbn [lookup_or_throw bind].
  apply IH. intros x X. destruct (String.eqb _ _); [|apply H; now right].
  unfold rput. destruct (String.eqb x c); [discriminate|apply H; now right].
Qed.

Lemma pfrom_ext (m m1 : rmap) l : forall s, (forall x, In x l -> parent m1 x = parent m x) -> pfrom m s l -> pfrom m1 s l.
Proof.
  induction l as [|x t IH]; intros s H P; [exact Logic.I|]. destruct P as [P1 P2]. split.
  - rewrite H; [auto|now left].
  - apply IH; auto. intros y Y. apply H. now right.
Qed.
Lemma pfrom_appl (m : rmap) a : forall s b, pfrom m s (a ++ b) -> pfrom m s a /\ pfrom m (rev a ++ s) b.
Proof.
  induction a as [|x t IH]; intros s b H; [split; [exact Logic.I|exact H]|]. destruct H as [H1 H2]. apply IH in H2 as [A B].
  split; [split; auto|]. cbn. rewrite <- app_assoc. exact B.
Qed.
Lemma pfrom_drop (m m1 : rmap) n p l : forall s s', incl s (n :: s') -> In p s' ->
  (forall x, In x l -> parent m1 x = if String.eqb (parent m x) n then p else parent m x) ->
  pfrom m s l -> pfrom m1 s' l.
Proof.
  induction l as [|x t IH]; intros s s' I Ip H P; [exact Logic.I|]. destruct P as [P1 P2]. split.
  - rewrite H by now left. destruct (String.eqb_spec (parent m x) n); [auto|]. apply I in P1 as [P1|P1]; [congruence|auto].
  - apply (IH (x :: s) (x :: s')); auto.
    + intros y [<-|Y]; [right; now left|]. apply I in Y as [<-|Y]; [now left|right; now right].
    + now right.
    + intros y Y. apply H. now right.
Qed.

Section Step.
Variables (m : rmap) (root : string) (d : list string) (n : string) (t : list string) (m1 : rmap).
Hypothesis Tr : tree m root (d ++ n :: t).
Hypothesis M : merged m root d n t m1.
Let p := parent m n.

Lemma nodup3 : NoDup (root :: d ++ n :: t) -> ~ In n (root :: d) /\ ~ In n t /\ (forall x, In x (root :: d) -> ~ In x t) /\ NoDup (root :: d ++ t).
Proof.
  intros H. change (root :: d ++ n :: t) with ((root :: d) ++ n :: t) in H. pose proof (NoDup_remove_1 _ _ _ H). pose proof (NoDup_remove_2 _ _ _ H).
  rewrite in_app_iff in H1. repeat split; auto.
  intros x X1 X2. clear - H0 X1 X2. change (NoDup ((root :: d) ++ t)) in H0. induction (root :: d) as [|y l IH]; [destruct X1|].
  inversion H0; subst. destruct X1 as [<-|X1]; [|auto]. apply H2. apply in_or_app. auto.
Qed.
Lemma s_notup : ~ In n (root :: d). Proof using Tr. destruct (nodup3 (tr_distinct _ _ _ Tr)) as (A & B & C & D); auto. Qed.
Lemma s_nott : ~ In n t. Proof using Tr. destruct (nodup3 (tr_distinct _ _ _ Tr)) as (A & B & C & D); auto. Qed.
Lemma s_disj x : In x (root :: d) -> ~ In x t. Proof using Tr. destruct (nodup3 (tr_distinct _ _ _ Tr)) as (A & B & C & D); auto. Qed.
Lemma s_pn : p <> n. Proof. intros E. apply s_notup. rewrite <- E. apply (mg_up _ _ _ _ _ _ M). Qed.
Lemma s_alive x : In x (root :: d ++ t) <-> In x (root :: d ++ n :: t) /\ x <> n.
Proof using Tr.
  clear M. cbn [In]. rewrite !in_app_iff. cbn [In]. pose proof s_notup. pose proof s_nott. cbn [In] in H. split.
  - intros [->|[H1|H1]]; (split; [tauto|]); intros ->; tauto.
  - intros [[->|[H1|[<-|H1]]] N]; tauto.
Qed.
Lemma s_palive : In p (root :: d ++ t).
Proof using M. pose proof (mg_up _ _ _ _ _ _ M) as [H|H]; [left; auto|right; apply in_or_app; auto]. Qed.

(** Everything about a link that is still there. *)
Lemma s_parent x : In x (root :: d ++ t) -> parent m1 x = if String.eqb (parent m x) n && existsb (String.eqb x) t then p else parent m x.
Proof.
  intros X. destruct (String.eqb_spec x p) as [->|Np].
  - unfold parent at 1. unfold p at 1. rewrite (mg_parent _ _ _ _ _ _ M). fold p.
    replace (existsb (String.eqb p) t) with false; [now rewrite andb_false_r|].
    symmetry. apply not_true_iff_false. intros H. apply existsb_exists in H as (y & Y & E). apply String.eqb_eq in E. subst y.
    eapply s_disj; [|exact Y]. apply (mg_up _ _ _ _ _ _ M).
  - destruct (existsb (String.eqb x) t) eqn:Ex.
    + apply existsb_exists in Ex as (y & Y & E). apply String.eqb_eq in E. subst y. rewrite andb_true_r.
      destruct (String.eqb_spec (parent m x) n) as [E|E].
      * unfold parent at 1. rewrite (mg_child _ _ _ _ _ _ M x Y E). reflexivity.
      * unfold parent at 1. rewrite (mg_other _ _ _ _ _ _ M x); auto.
    + rewrite andb_false_r. unfold parent at 1. rewrite (mg_other _ _ _ _ _ _ M x); auto.
      intros Y. exfalso. apply not_true_iff_false in Ex. apply Ex. apply existsb_exists. exists x. split; auto. apply String.eqb_refl.
Qed.
(** A child of [n] comes after it. *)
Lemma s_child x : In x (root :: d ++ n :: t) -> parent m x = n -> In x t.
Proof.
  intros X P. pose proof (tr_first _ _ _ Tr) as F. destruct X as [<-|X].
  { exfalso. rewrite (tr_root _ _ _ Tr) in P. apply (tr_nonempty _ _ _ Tr). rewrite P. right. apply in_or_app. right. now left. }
  apply in_app_or in X as [X|[<-|X]]; auto; exfalso.
  - apply in_split in X as (a & b & E). rewrite E, <- app_assoc in F. cbn in F. apply pfrom_split in F. rewrite P in F.
    apply s_notup. apply in_app_or in F as [F|[<-|[]]]; [|now left]. right. rewrite E. apply in_or_app. left. now apply in_rev.
  - apply s_pn. exact P.
Qed.
Lemma s_parent' x : In x (root :: d ++ t) -> parent m1 x = if String.eqb (parent m x) n then p else parent m x.
Proof.
  intros X. rewrite s_parent by auto. destruct (String.eqb_spec (parent m x) n) as [E|E]; [|reflexivity].
  apply s_alive in X as [X _]. pose proof (s_child _ X E) as Y.
  replace (existsb (String.eqb x) t) with true; [reflexivity|]. symmetry. apply existsb_exists. exists x. split; auto. apply String.eqb_refl.
Qed.
Lemma s_T x : In x (root :: d ++ t) -> rb_T (link m1 x) = if String.eqb (parent m x) n then iso_mul (rb_T (link m n)) (rb_T (link m x)) else rb_T (link m x).
Proof.
  intros X. pose proof (proj1 (s_alive x) X) as [A _]. destruct (String.eqb_spec (parent m x) n) as [E|E].
  - pose proof (s_child _ A E) as Y. unfold link at 1. rewrite (mg_child _ _ _ _ _ _ M x Y E). reflexivity.
  - destruct (String.eqb_spec x p) as [->|Np].
    + unfold link at 1. unfold p at 1. rewrite (mg_parent _ _ _ _ _ _ M). reflexivity.
    + unfold link at 1. rewrite (mg_other _ _ _ _ _ _ M x); auto.
Qed.
Lemma s_link x : In x (root :: d ++ t) -> m1 x <> None /\ rb_name (link m1 x) = rb_name (link m x) /\ rb_joint (link m1 x) = rb_joint (link m x) /\
  rb_inertia (link m1 x) = (if String.eqb x p then iadd (rb_inertia (link m p)) (iact (rb_T (link m n)) (rb_inertia (link m n))) else rb_inertia (link m x)) /\
  rb_graphics (link m1 x) = (if String.eqb x p then rb_graphics (link m p) ++ moved_graphics (rb_T (link m n)) (rb_graphics (link m n)) else rb_graphics (link m x)).
Proof.
  intros X. pose proof (proj1 (s_alive x) X) as [A _]. destruct (String.eqb_spec x p) as [->|Np].
  - pose proof (mg_parent _ _ _ _ _ _ M) as Q. fold p in Q. destruct (link_some _ _ _ _ Q) as [-> _]. rewrite Q. repeat split; auto. discriminate.
  - destruct (String.eqb_spec (parent m x) n) as [E|E].
    + pose proof (s_child _ A E) as Y. pose proof (mg_child _ _ _ _ _ _ M x Y E) as Q. destruct (link_some _ _ _ _ Q) as [-> _]. rewrite Q. repeat split; auto. discriminate.
    + assert (Q : m1 x = m x) by (apply (mg_other _ _ _ _ _ _ M); auto). unfold link. rewrite Q. repeat split; auto. apply (tr_in _ _ _ Tr). auto.
Qed.
Lemma s_tree : tree m1 root (d ++ t).
Proof.
  destruct (nodup3 (tr_distinct _ _ _ Tr)) as (N1 & N2 & N3 & N4). constructor; auto.
  - pose proof (tr_first _ _ _ Tr) as F. apply pfrom_appl in F as [Fd [Fn Ft]]. apply pfrom_app.
    + apply pfrom_ext with m; auto. intros x X. rewrite s_parent' by (right; apply in_or_app; auto).
      destruct (String.eqb_spec (parent m x) n) as [E|E]; auto.
      exfalso. apply (s_disj x); [now right|]. apply s_child; auto. right. apply in_or_app. auto.
    + eapply pfrom_drop; [| |intros x X; apply s_parent'; right; apply in_or_app; auto|exact Ft].
      * apply incl_refl.
      * pose proof (mg_up _ _ _ _ _ _ M) as [H|H]; apply in_or_app; [right; left; exact H|left; now apply in_rev in H].
  - intros x X. apply s_link; auto.
  - intros x X. destruct (s_link x X) as (_ & -> & _). apply (tr_name _ _ _ Tr). apply s_alive. auto.
  - rewrite s_parent' by now left. rewrite (tr_root _ _ _ Tr). destruct (String.eqb_spec "" n) as [E|E]; auto.
    exfalso. apply (tr_nonempty _ _ _ Tr). rewrite E. right. apply in_or_app. right. now left.
  - intros X. apply s_alive in X as [X _]. exact (tr_nonempty _ _ _ Tr X).
Qed.
End Step.

Lemma jtype_undef j : jtype_eqb j JUndef = true <-> j = JUndef.
Proof. destruct j; cbn; split; congruence. Qed.

Lemma merge_one (m : rmap) root d n t rb p rp pp rp' m1 : tree m root (d ++ n :: t) -> m n = Some (rb, p) -> fixed_joint rb ->
  m p = Some (rp, pp) ->
  called (rb_set_inertia (iadd (rb_inertia rp) (iact (rb_T rb) (rb_inertia rb)))
            (rb_with_graphics (rb_graphics rp ++ moved_graphics (rb_T rb) (rb_graphics rb)) rp)) = Ok rp' ->
  transfer (rput m p (rp', pp)) (rb_name rb) (rb_T rb) p t = Ok m1 -> merged m root d n t m1.
Proof.
  intros Tr En Fx Ep Ei Et.
  destruct (link_some _ _ _ _ En) as [Ln Pn]. destruct (link_some _ _ _ _ Ep) as [Lp Pp].
  assert (Nn : rb_name rb = n). { rewrite <- Ln. apply (tr_name _ _ _ Tr). right. apply in_or_app. right. now left. }
  rewrite Nn in Et.
  unfold rb_set_inertia in Ei. destruct (klt _ _); [discriminate|]. cbn in Ei. injection Ei as <-.
  assert (Up : In p (root :: d)).
  { pose proof (tr_first _ _ _ Tr) as F. apply pfrom_appl in F as [_ [F _]]. rewrite Pn in F.
    apply in_app_or in F as [F|[<-|[]]]; [right; now apply in_rev|now left]. }
  destruct (nodup3 root d n t (tr_distinct _ _ _ Tr)) as (N1 & N2 & N3 & N4).
  assert (Nt : NoDup t). { inversion N4. subst. clear - H2. induction d; auto. inversion H2; auto. }
  assert (Pt : ~ In p t) by (apply N3; auto).
  destruct (transfer_spec _ _ _ _ _ _ Nt Et) as (I1 & I2 & I3).
  match type of Et with transfer (rput m p ?v) _ _ _ _ = _ => set (w := v) in * end.
  assert (Same : forall x, x <> p -> link (rput m p w) x = link m x /\ parent (rput m p w) x = parent m x).
  { intros x X. unfold link, parent. now rewrite rput_ne. }
  constructor; rewrite ?Pn, ?Ln, ?Lp, ?Pp; auto.
  - rewrite I3 by tauto. now rewrite rput_eq.
  - intros c C P. assert (c <> p) by (intros ->; auto). rewrite I2; auto.
    + destruct (Same c H) as [-> _]. reflexivity.
    + destruct (Same c H) as [_ ->]. exact P.
  - intros c C P. rewrite I3, rput_ne; auto. intros X. destruct (Same c C) as [_ ->]. auto.
Qed.

Lemma steps_keep root (m : rmap) l m' l' : steps root m l m' l' -> tree m root l ->
  tree m' root l' /\ incl l' l /\ (forall x, In x (root :: l') -> rb_joint (link m' x) = rb_joint (link m x)).
Proof.
  induction 1 as [|m d n t m1 m2 l M _ IH]; intros Tr; [split; [exact Tr|split; auto using incl_refl]|].
  destruct (IH (s_tree _ _ _ _ _ _ Tr M)) as (T & I & J). split; [auto|split].
  - intros x X. apply I in X. apply in_app_or in X as [X|X]; apply in_or_app; [auto|right; now right].
  - intros x X. rewrite J by auto. apply (s_link _ _ _ _ _ _ Tr M).
    destruct X as [->|X]; [now left|right; auto].
Qed.

Definition moving (m : rmap) (n : string) : Prop := ~ fixed_joint (link m n).

Lemma merge_steps root l : forall (m : rmap) d m' kept, tree m root (d ++ l) -> Forall (moving m) d ->
  merge_rest m l = Ok (m', kept) -> steps root m (d ++ l) m' (d ++ kept) /\ Forall (moving m') (d ++ kept) /\
    forall n, In n l -> moving m n -> In n kept.
Proof.
  induction l as [|n t IH]; intros m d m' kept Tr Fd E; cbn [merge_rest] in E.
  { injection E as <- <-. rewrite app_nil_r. split; [constructor|]. split; auto. }
  assert (An : In n (root :: d ++ n :: t)) by (right; apply in_or_app; right; now left).
  pose proof (some_link m n (tr_in _ _ _ Tr n An)) as En. unfold r_at in E at 1. rewrite En in E. cbn [lookup_or_throw bind] in E.
  destruct (jtype_eqb (jtyp (rb_joint (link m n))) JUndef) eqn:Ej; cbn [negb] in E.
  - destruct (String.eqb (parent m n) ""); [discriminate|].
    unfold r_at in E at 1. destruct (m (parent m n)) as [[rp pp]|] eqn:Ep; [|discriminate]. cbn [lookup_or_throw bind] in E.
    match type of E with bind ?X _ = _ => destruct X as [rp'| |] eqn:Ei end; try discriminate. cbn [bind] in E.
    match type of E with bind ?X _ = _ => destruct X as [m1| |] eqn:Et end; try discriminate. cbn [bind] in E.
    assert (M : merged m root d n t m1).
    { eapply merge_one; eauto. apply jtype_undef. exact Ej. }
    destruct (IH m1 d m' kept) as (A & B & C); auto.
    + exact (s_tree _ _ _ _ _ _ Tr M).
    + rewrite Forall_forall in *. intros x X. unfold moving, fixed_joint.
      destruct (s_link _ _ _ _ _ _ Tr M x) as (_ & _ & -> & _); [right; apply in_or_app; auto|]. apply Fd; auto.
    + split; [econstructor; eauto|]. split; auto. intros x [<-|X] Mx.
      * exfalso. apply Mx. apply jtype_undef. exact Ej.
      * apply C; auto. unfold moving, fixed_joint. destruct (s_link _ _ _ _ _ _ Tr M x) as (_ & _ & -> & _); [right; apply in_or_app; auto|]. exact Mx.
  - destruct (merge_rest m t) as [[m2 k2]| |] eqn:Em; try discriminate. cbn [bind] in E. injection E as <- <-.
    replace (d ++ n :: t) with ((d ++ [n]) ++ t) in * by now rewrite <- app_assoc.
    replace (d ++ n :: k2) with ((d ++ [n]) ++ k2) in * by now rewrite <- app_assoc.
    destruct (IH m (d ++ [n]) m2 k2) as (A & B & C); auto.
    + apply Forall_app. split; auto. constructor; [|constructor]. intros F. apply jtype_undef in F. congruence.
    + split; [auto|split; [auto|]]. intros x [<-|X] Mx; [now left|right; auto].
Qed.

(** Merging never fails when sums of masses that are not negative are not negative. *)
Lemma merge_ok root (Add : forall a b : K, klt a 0 = false -> klt b 0 = false -> klt (a + b) 0 = false) l :
  forall (m : rmap) d, tree m root (d ++ l) -> (forall n, In n (root :: d ++ l) -> klt (imass (rb_inertia (link m n))) 0 = false) ->
  exists r, merge_rest m l = Ok r.
Proof.
  induction l as [|n t IH]; intros m d Tr Ms; cbn [merge_rest]; [eauto|].
  assert (An : In n (root :: d ++ n :: t)) by (right; apply in_or_app; right; now left).
  pose proof (some_link m n (tr_in _ _ _ Tr n An)) as En. unfold r_at at 1. rewrite En. cbn [lookup_or_throw bind].
  destruct (jtype_eqb (jtyp (rb_joint (link m n))) JUndef) eqn:Ej; cbn [negb].
  - assert (Up : In (parent m n) (root :: d)).
    { pose proof (tr_first _ _ _ Tr) as F. apply pfrom_appl in F as [_ [F _]].
      apply in_app_or in F as [F|[<-|[]]]; [right; now apply in_rev|now left]. }
    assert (Ap : In (parent m n) (root :: d ++ n :: t)) by (destruct Up; [left; auto|right; apply in_or_app; auto]).
    destruct (String.eqb_spec (parent m n) "") as [E0|_].
    { exfalso. apply (tr_nonempty _ _ _ Tr). rewrite <- E0. exact Ap. }
    unfold r_at at 1. rewrite (some_link m (parent m n)) by (apply (tr_in _ _ _ Tr); auto). cbn [lookup_or_throw bind].
    match goal with |- context [called ?X] => destruct (called X) as [rp'| |] eqn:Ei end;
      unfold rb_set_inertia in Ei; cbn [imass iadd iact] in Ei; rewrite Add in Ei by auto; cbn in Ei; try discriminate.
    cbn [bind].
    match goal with |- context [transfer ?a ?b ?c ?d ?e] => destruct (transfer_ok b c d e a) as [m1 Et] end.
    { intros c C. unfold rput. destruct (String.eqb c _); [discriminate|]. apply (tr_in _ _ _ Tr). right. apply in_or_app. right. now right. }
    rewrite Et. cbn [bind].
    assert (M : merged m root d n t m1).
    { eapply merge_one; [exact Tr|exact En|apply jtype_undef; exact Ej|apply some_link; apply (tr_in _ _ _ Tr); auto| |exact Et].
      unfold rb_set_inertia. cbn [imass iadd iact]. rewrite Add by auto. cbn. exact Ei. }
    apply (IH m1 d); [exact (s_tree _ _ _ _ _ _ Tr M)|]. intros x X.
    destruct (s_link _ _ _ _ _ _ Tr M x X) as (_ & _ & _ & -> & _). destruct (String.eqb x _).
    + cbn [imass iadd iact]. apply Add; auto.
    + apply Ms. apply (s_alive _ _ _ _ _ Tr). exact X.
  - destruct (IH m (d ++ [n])) as [[m2 k2] E2]; rewrite <- ?app_assoc; auto. rewrite E2. cbn. eauto.
Qed.

(** * Placement *)
Lemma placed_fun (m : rmap) root q n T : placed m root q n T -> forall T', placed m root q n T' -> T = T'.
Proof.
  induction 1 as [|n rb p T N E P IH]; intros T' H'.
  - inversion H'; subst; congruence.
  - inversion H'; subst; [congruence|]. rewrite E in H0. injection H0 as <- <-. rewrite (IH _ H1). reflexivity.
Qed.
Lemma placed_total (m : rmap) root q l : forall s, (forall x, In x l -> m x <> None) -> ~ In root l ->
  (forall x, In x s -> exists T, placed m root q x T) -> pfrom m s l -> forall x, In x l -> exists T, placed m root q x T.
Proof.
  induction l as [|y t IH]; intros s I R H P x X; [destruct X|]. destruct P as [P1 P2].
  assert (Y : exists T, placed m root q y T).
  { destruct (H _ P1) as [T HT]. eexists. eapply placed_child; [|apply some_link; apply I; now left|exact HT].
    intros ->. apply R. now left. }
  destruct X as [<-|X]; [exact Y|]. apply (IH (y :: s)); auto.
  - intros z Z. apply I. now right.
  - intros Z. apply R. now right.
  - intros z [<-|Z]; auto.
Qed.
Lemma tree_placed (m : rmap) root q t : tree m root t -> forall x, In x (root :: t) -> exists T, placed m root q x T.
Proof.
  intros Tr x [<-|X]; [eexists; constructor|].
  pose proof (tr_distinct _ _ _ Tr) as N. inversion N; subst.
  eapply placed_total; [| | |exact (tr_first _ _ _ Tr)|exact X]; auto.
  - intros y Y. apply (tr_in _ _ _ Tr). now right.
  - intros y [<-|[]]. eexists. constructor.
Qed.

Section Laws.
Context {L : ScalLaws S}.
Add Field kf : (@kfield S L).

Lemma fixed_T rb q : fixed_joint rb -> T_joint (rb_joint rb) q = iso_id.
Proof. unfold fixed_joint, T_joint. intros ->. reflexivity. Qed.

Lemma step_placed (m : rmap) root d n t m1 q : tree m root (d ++ n :: t) -> merged m root d n t m1 ->
  forall x T, placed m root q x T ->
    (In x (root :: d ++ t) -> placed m1 root q x T) /\
    (x = n -> exists Tp, placed m1 root q (parent m n) Tp /\ T = iso_mul Tp (rb_T (link m n))).
Proof.
  intros Tr M x T H.
  pose proof (mg_up _ _ _ _ _ _ M) as Up.
  induction H as [|x rb p T N E P [IH1 IH2]].
  - split.
    + intros X. pose proof (s_T _ _ _ _ _ _ Tr M root X) as Q. rewrite (tr_root _ _ _ Tr) in Q.
      destruct (String.eqb_spec "" n) as [E|_].
      * exfalso. apply (tr_nonempty _ _ _ Tr). rewrite E. right. apply in_or_app. right. now left.
      * rewrite <- Q. constructor.
    + intros ->. exfalso. apply (s_notup _ _ _ _ _ Tr). now left.
  - destruct (link_some _ _ _ _ E) as [Lx Px]. split.
    + intros X. destruct (s_link _ _ _ _ _ _ Tr M x X) as (Q1 & _ & Q3 & _).
      pose proof (s_parent' _ _ _ _ _ _ Tr M x X) as Q4. pose proof (s_T _ _ _ _ _ _ Tr M x X) as Q5.
      rewrite Px, Lx in *. pose proof (some_link _ _ Q1) as Q6. rewrite Q4 in Q6. rewrite <- Q3.
      destruct (String.eqb_spec p n) as [->|Np].
      * destruct (IH2 eq_refl) as (Tp & H1 & ->). rewrite (iso_mul_assoc Tp), <- Q5.
        eapply placed_child; eauto.
      * rewrite <- Q5. eapply placed_child; eauto. apply IH1. apply (s_alive _ _ _ _ _ Tr). split; auto.
        pose proof (tr_first _ _ _ Tr) as F. pose proof (proj1 (s_alive _ _ _ _ _ Tr x) X) as [X' _].
        destruct X' as [<-|X']; [congruence|]. apply in_split in X' as (a & b & Eab). rewrite Eab in F. apply pfrom_split in F.
        rewrite Px in F. apply in_app_or in F as [F|[<-|[]]]; [|now left]. right. rewrite Eab. apply in_or_app. left. now apply in_rev.
    + intros ->. rewrite Px. exists T. split.
      * apply IH1. rewrite <- Px. apply (s_palive _ _ _ _ _ _ M).
      * rewrite Lx, (fixed_T rb), iso_mul_id_r; auto. rewrite <- Lx. apply (mg_fixed _ _ _ _ _ _ M).
Qed.
Lemma steps_placed root (m : rmap) l m' l' q : steps root m l m' l' -> tree m root l ->
  forall x T, In x (root :: l') -> placed m root q x T -> placed m' root q x T.
Proof.
  induction 1 as [|m d n t m1 m2 l M St IH]; intros Tr x T X P; auto.
  assert (Tr1 := s_tree _ _ _ _ _ _ Tr M). apply IH; auto. eapply step_placed; eauto.
  destruct (steps_keep _ _ _ _ _ St Tr1) as (_ & I & _). destruct X as [->|X]; [now left|right; auto].
Qed.
Lemma steps_placed_iff root (m : rmap) l m' l' q : steps root m l m' l' -> tree m root l ->
  forall x T, In x (root :: l') -> placed m root q x T <-> placed m' root q x T.
Proof.
  intros St Tr x T X. split; [eapply steps_placed; eauto|]. intros P.
  destruct (steps_keep _ _ _ _ _ St Tr) as (_ & I & _).
  destruct (tree_placed m root q l Tr x) as [T' P']. { destruct X as [->|X]; [now left|right; auto]. }
  rewrite (placed_fun _ _ _ _ _ P _ (steps_placed _ _ _ _ _ _ St Tr x T' X P')). exact P'.
Qed.

(** * Rigid groups *)
Lemma attached_fun (m : rmap) root n a T : attached m root n a T -> forall a' T', attached m root n a' T' -> a = a' /\ T = T'.
Proof.
  induction 1 as [n H|n rb p a T N E F A IH]; intros a' T' H'; inversion H'; subst; auto.
  - exfalso. destruct H as [->|H]; [congruence|]. apply H. now destruct (link_some _ _ _ _ H1) as [-> _].
  - exfalso. destruct H as [->|H]; [congruence|]. apply H. now destruct (link_some _ _ _ _ E) as [-> _].
  - rewrite E in H0. injection H0 as <- <-. destruct (IH _ _ H2) as [-> ->]. auto.
Qed.
Lemma fixed_dec rb : fixed_joint rb \/ ~ fixed_joint rb.
Proof. unfold fixed_joint. destruct (jtyp (rb_joint rb)); auto; right; discriminate. Qed.
Lemma attached_total (m : rmap) root l : forall s, (forall x, In x l -> m x <> None) -> ~ In root l ->
  (forall x, In x s -> exists a T, attached m root x a T) -> pfrom m s l -> forall x, In x l -> exists a T, attached m root x a T.
Proof.
  induction l as [|y t IH]; intros s I R H P x X; [destruct X|]. destruct P as [P1 P2].
  assert (Y : exists a T, attached m root y a T).
  { destruct (fixed_dec (link m y)) as [F|F]; [|exists y, iso_id; constructor; auto].
    destruct (H _ P1) as (a & T & HT). exists a. eexists. eapply attached_child; [|apply some_link; apply I; now left|exact F|exact HT].
    intros ->. apply R. now left. }
  destruct X as [<-|X]; [exact Y|]. apply (IH (y :: s)); auto.
  - intros z Z. apply I. now right.
  - intros Z. apply R. now right.
  - intros z [<-|Z]; auto.
Qed.
Lemma tree_attached (m : rmap) root t : tree m root t -> forall x, In x (root :: t) -> exists a T, attached m root x a T.
Proof.
  intros Tr x [<-|X]; [exists root, iso_id; constructor; auto|].
  pose proof (tr_distinct _ _ _ Tr) as N. inversion N; subst.
  eapply attached_total; [| | |exact (tr_first _ _ _ Tr)|exact X]; auto.
  - intros y Y. apply (tr_in _ _ _ Tr). now right.
  - intros y [<-|[]]. exists root, iso_id. constructor; auto.
Qed.
Lemma parent_alive (m : rmap) root t x : tree m root t -> In x t -> In (parent m x) (root :: t).
Proof.
  intros Tr X. pose proof (tr_first _ _ _ Tr) as F. apply in_split in X as (a & b & ->). apply pfrom_split in F.
  apply in_app_or in F as [F|[<-|[]]]; [|now left]. right. apply in_or_app. left. now apply in_rev.
Qed.
Lemma attached_in (m : rmap) root t x a T : tree m root t -> attached m root x a T -> In x (root :: t) ->
  In a (root :: t) /\ ((forall y, In y (root :: t) -> rigid (rb_T (link m y))) -> rigid T).
Proof.
  intros Tr A. induction A as [n H|n rb p a T N E F A IH]; intros X.
  - split; auto. intros _. apply rigid_id.
  - destruct X as [->|X]; [congruence|]. pose proof (parent_alive _ _ _ _ Tr X) as P. destruct (link_some _ _ _ _ E) as [En Pn]. rewrite Pn in P.
    destruct (IH P) as [I1 I2]. split; auto. intros R. apply rigid_mul; auto. rewrite <- En. apply R. now right.
Qed.
Lemma step_attached (m : rmap) root d n t m1 : tree m root (d ++ n :: t) -> merged m root d n t m1 ->
  forall x a T, attached m root x a T ->
    (In x (root :: d ++ t) -> attached m1 root x a T) /\
    (x = n -> exists Tp, attached m1 root (parent m n) a Tp /\ T = iso_mul Tp (rb_T (link m n))).
Proof.
  intros Tr M x a T H.
  induction H as [x H|x rb p a T N E F A [IH1 IH2]].
  - split.
    + intros X. destruct (s_link _ _ _ _ _ _ Tr M x X) as (_ & _ & Q3 & _). constructor.
      unfold fixed_joint. rewrite Q3. exact H.
    + intros ->. exfalso. destruct H as [->|H]; [apply (s_notup _ _ _ _ _ Tr); now left|]. apply H. apply (mg_fixed _ _ _ _ _ _ M).
  - destruct (link_some _ _ _ _ E) as [Lx Px]. split.
    + intros X. destruct (s_link _ _ _ _ _ _ Tr M x X) as (Q1 & _ & Q3 & _).
      pose proof (s_parent' _ _ _ _ _ _ Tr M x X) as Q4. pose proof (s_T _ _ _ _ _ _ Tr M x X) as Q5.
      rewrite Px, Lx in *. pose proof (some_link _ _ Q1) as Q6. rewrite Q4 in Q6.
      assert (Fx : fixed_joint (link m1 x)) by (unfold fixed_joint; rewrite Q3; exact F).
      destruct (String.eqb_spec p n) as [->|Np].
      * destruct (IH2 eq_refl) as (Tp & H1 & ->). rewrite (iso_mul_assoc Tp), <- Q5. eapply attached_child; eauto.
      * rewrite <- Q5. eapply attached_child; eauto. apply IH1. apply (s_alive _ _ _ _ _ Tr). split; auto.
        pose proof (proj1 (s_alive _ _ _ _ _ Tr x) X) as [[->|X'] _]; [congruence|]. rewrite <- Px. eapply parent_alive; eauto.
    + intros ->. rewrite Px. exists T. split; [|now rewrite Lx].
      apply IH1. rewrite <- Px. apply (s_palive _ _ _ _ _ _ M).
Qed.
Lemma step_attached_iff (m : rmap) root d n t m1 : tree m root (d ++ n :: t) -> merged m root d n t m1 ->
  forall x a T, In x (root :: d ++ t) -> attached m root x a T <-> attached m1 root x a T.
Proof.
  intros Tr M x a T X. split; [intros H; eapply step_attached; eauto|]. intros H.
  destruct (tree_attached m root _ Tr x) as (a' & T' & H'). { apply (s_alive _ _ _ _ _ Tr). exact X. }
  destruct (attached_fun _ _ _ _ _ H a' T') as [-> ->]; auto. eapply step_attached; eauto.
Qed.

Lemma fold_swap {A B} (op : B -> B -> B) (e : B) (Ac : forall a b c, op a (op b c) = op (op a b) c) (Cm : forall a b, op a b = op b a)
  (f f1 : A -> B) (p : A) x g : In p g -> NoDup g -> f1 p = op (f p) x -> (forall y, In y g -> y <> p -> f1 y = f y) ->
  fold_right op e (map f1 g) = op x (fold_right op e (map f g)).
Proof.
  induction g as [|y t IH]; intros I N E O; [destruct I|]. inversion N as [|? ? Ny Nt]; subst. cbn.
  destruct I as [->|I].
  - rewrite E. rewrite (Cm (f p) x), <- Ac. f_equal. f_equal. f_equal. apply map_ext_in. intros z Z. apply O; [now right|intros ->; auto].
  - rewrite IH; auto.
    + rewrite (O y (or_introl eq_refl)) by (intros ->; auto). rewrite !Ac, (Cm (f y) x). reflexivity.
    + intros z Z. apply O. now right.
Qed.
Lemma flat_swap {A B} (f f1 : A -> list B) (p : A) x g : In p g -> NoDup g -> f1 p = f p ++ x -> (forall y, In y g -> y <> p -> f1 y = f y) ->
  Permutation (flat_map f1 g) (x ++ flat_map f g).
Proof.
  induction g as [|y t IH]; intros I N E O; [destruct I|]. inversion N as [|? ? Ny Nt]; subst. cbn.
  destruct I as [->|I].
  - replace (flat_map f1 t) with (flat_map f t).
    + rewrite E, app_assoc. apply Permutation_app_tail. apply Permutation_app_comm.
    + rewrite !flat_map_concat_map. f_equal. apply map_ext_in. intros z Z. symmetry. apply O; [now right|intros ->; auto].
  - rewrite (O y (or_introl eq_refl)) by (intros ->; auto). rewrite IH; auto.
    + rewrite !app_assoc. apply Permutation_app_tail. apply Permutation_app_comm.
    + intros z Z. apply O. now right.
Qed.
Lemma nodup_fst (g : list (string * iso)) : NoDup (map fst g) -> NoDup g.
Proof. apply NoDup_map_inv. Qed.
Lemma fst_inj (g : list (string * iso)) x y : NoDup (map fst g) -> In x g -> In y g -> fst x = fst y -> x = y.
Proof.
  induction g as [|z t IH]; intros N X Y E; [destruct X|]. inversion N; subst.
  destruct X as [->|X], Y as [->|Y]; auto; exfalso; apply H1; [rewrite E|rewrite <- E]; now apply in_map.
Qed.

Context {P : PosLaws S}.
Definition good_link (m : rmap) (y : string) : Prop :=
  rigid (rb_T (link m y)) /\ klt 0 (imass (rb_inertia (link m y))) = true /\ isym (rb_inertia (link m y)).
Definition group_in (m : rmap) (root : string) (l : list string) (a : string) (g : list (string * iso)) : Prop :=
  NoDup (map fst g) /\ forall n T, In (n, T) g <-> In n l /\ attached m root n a T.
(** The rigid group of [a] moves, weighs and looks as link [a] of [m'] does. *)
Definition group_is (m : rmap) (g : list (string * iso)) (m' : rmap) (a : string) : Prop :=
  same_body (rb_inertia (link m' a)) (rb_graphics (link m' a)) m g.

Lemma step_group (m : rmap) root d n t m1 a g1 m' : tree m root (d ++ n :: t) -> merged m root d n t m1 ->
  (forall y, In y (root :: d ++ n :: t) -> good_link m y) ->
  group_in m1 root (root :: d ++ t) a g1 -> group_is m1 g1 m' a ->
  exists g, group_in m root (root :: d ++ n :: t) a g /\ group_is m g m' a.
Proof.
  intros Tr M Ok (N1 & I1) (G1 & G2 & G3).
  pose proof (s_tree _ _ _ _ _ _ Tr M) as Tr1.
  set (p := parent m n).
  assert (An : In n (root :: d ++ n :: t)) by (right; apply in_or_app; right; now left).
  assert (Pal : In p (root :: d ++ t)) by (exact (s_palive _ _ _ _ _ _ M)).
  assert (Pal' : In p (root :: d ++ n :: t)) by (apply (s_alive _ _ _ _ _ Tr) in Pal; tauto).
  assert (Nr : n <> root). { intros ->. apply (s_notup _ _ _ _ _ Tr). now left. }
  pose proof (some_link m n (tr_in _ _ _ Tr n An)) as En. fold p in En.
  destruct (tree_attached m root _ Tr p Pal') as (a' & Tp & Ap).
  assert (Anp : attached m root n a' (iso_mul Tp (rb_T (link m n)))).
  { eapply attached_child; eauto. apply (mg_fixed _ _ _ _ _ _ M). }
  assert (Rp : rigid Tp). { apply (proj2 (attached_in _ _ _ _ _ _ Tr Ap Pal')). intros y Y. apply Ok; auto. }
  destruct (String.eqb_spec a' a) as [->|Na].
  - exists ((n, iso_mul Tp (rb_T (link m n))) :: g1).
    assert (Ig : In (p, Tp) g1). { apply I1. split; auto. apply (step_attached_iff _ _ _ _ _ _ Tr M); auto. }
    assert (Only : forall y, In y g1 -> y <> (p, Tp) -> fst y <> p).
    { intros y Y N E. apply N. apply (fst_inj g1); auto. }
    assert (Al : forall y, In y g1 -> In (fst y) (root :: d ++ t)). { intros [y T] Y. apply I1 in Y. tauto. }
    split; [split|].
    + cbn. constructor; auto. intros H. apply in_map_iff in H as ([y T] & E & Y). cbn in E. subst y.
      apply I1 in Y as [Y _]. apply (s_alive _ _ _ _ _ Tr) in Y. tauto.
    + intros x T. cbn [In]. rewrite I1. split.
      * intros [H|[H1 H2]]; [injection H as <- <-; auto|]. split; [apply (s_alive _ _ _ _ _ Tr) in H1; tauto|].
        apply (step_attached_iff _ _ _ _ _ _ Tr M); auto.
      * intros [H1 H2]. destruct (String.eqb_spec x n) as [->|Nx].
        -- left. destruct (attached_fun _ _ _ _ _ Anp _ _ H2) as [_ ->]. reflexivity.
        -- right. assert (In x (root :: d ++ t)) by (apply (s_alive _ _ _ _ _ Tr); auto). split; auto.
           apply (step_attached_iff _ _ _ _ _ _ Tr M); auto.
    + destruct (s_link _ _ _ _ _ _ Tr M p Pal) as (_ & _ & _ & Ip & Gp). fold p in Ip, Gp. rewrite String.eqb_refl in Ip, Gp.
      split; [|split].
      * rewrite G1. unfold group_mass, total. cbn [map fold_right fst].
        apply (fold_swap kadd 0) with (p := (p, Tp)); auto using nodup_fst.
        -- intros; ring. -- intros; ring.
        -- cbn [fst]. rewrite Ip. reflexivity.
        -- intros y Y N. pose proof (Only y Y N) as Ne. destruct (s_link _ _ _ _ _ _ Tr M (fst y) (Al y Y)) as (_ & _ & _ & -> & _).
           fold p. apply String.eqb_neq in Ne. now rewrite Ne.
      * intros v. rewrite G2. unfold group_momentum. cbn [map fold_right fst snd].
        apply (fold_swap fadd fzero) with (p := (p, Tp)); auto using nodup_fst, fadd_assoc, fadd_comm.
        -- cbn [fst snd]. rewrite Ip. rewrite iadd_mul, fact_add.
           ++ f_equal. rewrite imul_act' by (apply Ok; auto). rewrite fact_mul, mact_inv_mul; auto. apply Ok; auto.
           ++ cbn [imass iact]. apply kpos_neq. apply kpos_add; apply Ok; auto.
        -- intros y Y N. pose proof (Only y Y N) as Ne. destruct (s_link _ _ _ _ _ _ Tr M (fst y) (Al y Y)) as (_ & _ & _ & -> & _).
           fold p. apply String.eqb_neq in Ne. now rewrite Ne.
      * rewrite G3. unfold group_pictures. cbn [flat_map fst snd].
        apply flat_swap with (p := (p, Tp)); auto using nodup_fst.
        -- cbn [fst snd]. rewrite Gp, map_app. f_equal. unfold moved_graphics. rewrite map_map. apply map_ext. intros x. cbn. now rewrite iso_mul_assoc.
        -- intros y Y N. pose proof (Only y Y N) as Ne. destruct (s_link _ _ _ _ _ _ Tr M (fst y) (Al y Y)) as (_ & _ & _ & _ & ->).
           fold p. apply String.eqb_neq in Ne. now rewrite Ne.
  - exists g1.
    assert (Al : forall y, In y g1 -> In (fst y) (root :: d ++ t) /\ fst y <> p).
    { intros [y T] Y. apply I1 in Y as [Y1 Y2]. split; auto. cbn. intros ->. apply Na.
      apply (step_attached_iff _ _ _ _ _ _ Tr M) in Y2; auto. apply (attached_fun _ _ _ _ _ Ap) in Y2. tauto. }
    split; [split; auto|].
    + intros x T. rewrite I1. split.
      * intros [H1 H2]. split; [apply (s_alive _ _ _ _ _ Tr) in H1; tauto|]. apply (step_attached_iff _ _ _ _ _ _ Tr M); auto.
      * intros [H1 H2]. assert (Nx : x <> n). { intros ->. apply Na. apply (attached_fun _ _ _ _ _ Anp) in H2. tauto. }
        assert (In x (root :: d ++ t)) by (apply (s_alive _ _ _ _ _ Tr); auto). split; auto. apply (step_attached_iff _ _ _ _ _ _ Tr M); auto.
    + assert (Q : forall y, In y g1 -> rb_inertia (link m1 (fst y)) = rb_inertia (link m (fst y)) /\ rb_graphics (link m1 (fst y)) = rb_graphics (link m (fst y))).
      { intros y Y. destruct (Al y Y) as [Y1 Ne]. destruct (s_link _ _ _ _ _ _ Tr M (fst y) Y1) as (_ & _ & _ & -> & ->).
        fold p. apply String.eqb_neq in Ne. now rewrite Ne. }
      split; [|split].
      * rewrite G1. unfold group_mass. f_equal. apply map_ext_in. intros y Y. now rewrite (proj1 (Q y Y)).
      * intros v. rewrite G2. unfold group_momentum. f_equal. apply map_ext_in. intros y Y. now rewrite (proj1 (Q y Y)).
      * rewrite G3. unfold group_pictures. rewrite !flat_map_concat_map. erewrite map_ext_in; [reflexivity|].
        intros y Y. cbv beta. now rewrite (proj2 (Q y Y)).
Qed.

Lemma step_good (m : rmap) root d n t m1 : tree m root (d ++ n :: t) -> merged m root d n t m1 ->
  (forall y, In y (root :: d ++ n :: t) -> good_link m y) ->
  (forall y, In y (root :: d ++ t) -> good_link m1 y).
Proof.
  intros Tr M Ok y Y. assert (An : In n (root :: d ++ n :: t)) by (right; apply in_or_app; right; now left).
  pose proof (proj1 (s_alive _ _ _ _ _ Tr y) Y) as [Y' _].
  pose proof (s_palive _ _ _ _ _ _ M) as Pal. apply (s_alive _ _ _ _ _ Tr) in Pal as [Pal _].
  destruct (s_link _ _ _ _ _ _ Tr M y Y) as (_ & _ & _ & EI & _).
  unfold good_link. rewrite EI, (s_T _ _ _ _ _ _ Tr M y Y). clear EI. split; [|split].
  - destruct (String.eqb (parent m y) n); [apply rigid_mul|]; apply Ok; auto.
  - destruct (String.eqb _ _); [cbn [imass iadd iact]; apply kpos_add|]; apply Ok; auto.
  - destruct (String.eqb _ _); [apply isym_add; [|apply isym_act]|]; apply Ok; auto.
Qed.
Lemma steps_good root (m : rmap) l m' l' : steps root m l m' l' -> tree m root l ->
  (forall y, In y (root :: l) -> good_link m y) -> forall y, In y (root :: l') -> good_link m' y.
Proof.
  induction 1 as [|m d n t m1 m2 l M St IH]; intros Tr Ok; auto.
  apply IH; [exact (s_tree _ _ _ _ _ _ Tr M)|exact (step_good _ _ _ _ _ _ Tr M Ok)].
Qed.
Lemma steps_mass root (m : rmap) l m' l' : steps root m l m' l' -> tree m root l ->
  total (map (fun n => imass (rb_inertia (link m' n))) (root :: l')) = total (map (fun n => imass (rb_inertia (link m n))) (root :: l)).
Proof.
  induction 1 as [|m d n t m1 m2 l M St IH]; intros Tr; auto.
  rewrite IH by exact (s_tree _ _ _ _ _ _ Tr M). clear IH St.
  set (p := parent m n). assert (Pal : In p (root :: d ++ t)) by exact (s_palive _ _ _ _ _ _ M).
  destruct (nodup3 root d n t (tr_distinct _ _ _ Tr)) as (_ & _ & _ & ND).
  assert (E : total (map (fun x => imass (rb_inertia (link m1 x))) (root :: d ++ t)) =
              (imass (rb_inertia (link m n)) + total (map (fun x => imass (rb_inertia (link m x))) (root :: d ++ t)))%k).
  { unfold total. apply (fold_swap kadd 0) with (p := p); auto.
    - intros; ring. - intros; ring.
    - destruct (s_link _ _ _ _ _ _ Tr M p Pal) as (_ & _ & _ & -> & _). fold p. rewrite String.eqb_refl. reflexivity.
    - intros y Y N. destruct (s_link _ _ _ _ _ _ Tr M y Y) as (_ & _ & _ & -> & _). fold p. apply String.eqb_neq in N. now rewrite N. }
  rewrite E. cbn [map]. rewrite !map_app. cbn [map].
  assert (T2 : forall a b, total (a ++ b) = total a + total b).
  { intros a b. unfold total. induction a as [|x a IH]; cbn; [ring|]. rewrite IH. ring. }
  assert (C2 : forall x a, total (x :: a) = x + total a) by reflexivity.
  rewrite !C2, !T2, C2. ring.
Qed.
Lemma steps_group root (m : rmap) l m' l' a : steps root m l m' l' -> tree m root l -> Forall (moving m') l' -> In a (root :: l') ->
  (forall y, In y (root :: l) -> good_link m y) ->
  exists g, group_in m root (root :: l) a g /\ group_is m g m' a.
Proof.
  induction 1 as [m l|m d n t m1 m2 l M St IH]; intros Tr Mv A Ok.
  - exists [(a, iso_id)]. split; [split|].
    + cbn. constructor; [intros []|constructor].
    + intros x T. cbn [In]. assert (Self : forall y, In y (root :: l) -> attached m root y y iso_id).
      { intros y [<-|Y]; constructor; auto. right. rewrite Forall_forall in Mv. apply Mv. auto. }
      split.
      * intros [H|[]]. injection H as <- <-. auto.
      * intros [H1 H2]. destruct (attached_fun _ _ _ _ _ H2 _ _ (Self x H1)) as [-> ->]. auto.
    + split; [|split].
      * unfold group_mass. cbn. ring.
      * intros v. unfold group_momentum. cbn. rewrite fadd_zero_r, fact_id. f_equal. replace (iso_inv iso_id) with iso_id.
        -- now rewrite mact_id. -- rewrite <- (iso_mul_id_r (iso_inv iso_id)). symmetry. apply iso_inv_l. apply rigid_id.
      * unfold group_pictures. cbn. rewrite app_nil_r. erewrite map_ext; [rewrite map_id; reflexivity|]. intros [x1 x2 x3 x4]. cbn. now rewrite iso_mul_id_l.
  - destruct (IH (s_tree _ _ _ _ _ _ Tr M) Mv A (step_good _ _ _ _ _ _ Tr M Ok)) as (g & G1 & G2).
    eapply step_group; eauto.
Qed.
End Laws.

End UrdfMerge.
