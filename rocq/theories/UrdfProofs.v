(** Lemmas about URDF loading. *)
From Coq Require Import List Arith ZArith Bool String Lia Permutation.
From Verif Require Import Scalar Base Spatial SpecGeo Joint Body Urdf SpecDyn SpecUrdf.
Import ListNotations.

Section UrdfProofs.
Context {S : Scal}.

Notation rmap := (@rmap S).

Lemma NoDup_disj {A} (a b : list A) : NoDup a -> NoDup b -> (forall x, In x a -> In x b -> False) -> NoDup (a ++ b).
Proof.
  induction 1 as [|x a N Na IH]; intros B D; [exact B|]. cbn. constructor.
  - rewrite in_app_iff. intros [H|H]; [auto|]. apply (D x); [now left|auto].
  - apply IH; auto. intros y H1 H2. apply (D y); [now right|auto].
Qed.

Lemma bind_ok {A B} (a : A) (f : A -> res B) : bind (Ok a) f = f a.
Proof. reflexivity. Qed.

(** * Order *)
Inductive lev (m : rmap) (root : string) : string -> nat -> Prop :=
| lev_0 : lev m root root 0
| lev_S n rb p k : m n = Some (rb, p) -> lev m root p k -> lev m root n (Datatypes.S k).

Section Order.
Variables (m : rmap) (names : list string) (root : string).
Hypothesis OK : links_ok m names.
Hypothesis Rin : In root names.
Hypothesis Rp : parent m root = ""%string.

Lemma look n : In n names -> exists rb p, m n = Some (rb, p) /\ (p = ""%string \/ In p names).
Proof.
  intros H. assert (N := proj1 (lk_in _ _ OK n) H). assert (P := lk_parent _ _ OK n H). unfold parent in P.
  destruct (m n) as [[rb p]|] eqn:E; [|congruence]. eauto.
Qed.
Lemma some_in n rb p : m n = Some (rb, p) -> In n names.
Proof. intros E. apply (lk_in _ _ OK). congruence. Qed.
Lemma lev_in n k : lev m root n k -> In n names.
Proof. destruct 1; eauto using some_in. Qed.
Lemma not_empty n k : lev m root n k -> n <> ""%string.
Proof. intros H ->. apply (lk_nonempty _ _ OK). eapply lev_in; eauto. Qed.
Lemma lev_inv n k : lev m root n k -> (n = root /\ k = 0) \/ exists rb p j, m n = Some (rb, p) /\ lev m root p j /\ k = Datatypes.S j.
Proof. destruct 1; [left; auto|right; eauto 8]. Qed.
Lemma lev_root k : lev m root root k -> k = 0.
Proof.
  intros H. apply lev_inv in H as [[_ H]|(rb & p & j & E & L & ->)]; auto.
  exfalso. unfold parent in Rp. rewrite E in Rp. rewrite Rp in L. exact (not_empty _ _ L eq_refl).
Qed.
Lemma lev_fun n k : lev m root n k -> forall j, lev m root n j -> k = j.
Proof.
  induction 1 as [|n rb p k E L IH]; intros j H.
  - now rewrite (lev_root _ H).
  - apply lev_inv in H as [[-> ->]|(rb' & p' & i & E' & L' & ->)].
    + now rewrite (lev_root _ (lev_S m root _ _ _ _ E L)).
    + rewrite E in E'. injection E' as <- <-. f_equal. auto.
Qed.
Lemma lev_chain n k : lev m root n k ->
  exists l, List.length l = Datatypes.S k /\ NoDup l /\ incl l names /\ Forall (fun x => exists j, j <= k /\ lev m root x j) l.
Proof.
  induction 1 as [|n rb p k E L (l & Ln & N & I & F)].
  - exists [root]. repeat split; auto. + constructor; [intros []|constructor]. + intros x [<-|[]]; auto.
    + constructor; auto. exists 0. split; auto. constructor.
  - exists (n :: l). split; [cbn; lia|]. split; [|split].
    + constructor; auto. intros H. rewrite Forall_forall in F. destruct (F _ H) as (j & J1 & J2).
      assert (L' := lev_S m root _ _ _ _ E L). pose proof (lev_fun _ _ L' _ J2). lia.
    + intros x [<-|H]; auto. eauto using some_in.
    + constructor. * exists (Datatypes.S k). split; auto. econstructor; eauto.
      * eapply Forall_impl; [|exact F]. intros x (j & J1 & J2). exists j. split; auto.
Qed.
Lemma lev_bound n k : lev m root n k -> k < List.length names.
Proof.
  intros H. destruct (lev_chain _ _ H) as (l & Ln & N & I & _).
  pose proof (NoDup_incl_length N I). lia.
Qed.
Lemma below_lev a j : lev m root a j -> forall x, below m a x -> exists k, j <= k /\ lev m root x k /\ (k = j -> x = a).
Proof.
  intros La x H. induction H as [|n rb p E B (k & J & L & Q)].
  - exists j. auto.
  - exists (Datatypes.S k). split; [lia|]. split; [econstructor; eauto|lia].
Qed.
Lemma lev_below n k : lev m root n k -> below m root n.
Proof. induction 1; [constructor|econstructor; eauto]. Qed.
Lemma below_inv a n : below m a n -> n = a \/ exists rb p, m n = Some (rb, p) /\ below m a p.
Proof. destruct 1; eauto. Qed.
Lemma below_fun c c' j x : lev m root c j -> lev m root c' j -> below m c x -> below m c' x -> c = c'.
Proof.
  intros Lc Lc' H. induction H as [|n rb p E B IH]; intros H'.
  - destruct (below_lev _ _ Lc' _ H') as (k & J & L & Q). rewrite (lev_fun _ _ Lc _ L) in *. auto.
  - apply below_inv in H' as [->|(rb' & p' & E' & B')].
    + destruct (below_lev _ _ Lc c') as (k & J & L & Q); [econstructor; eauto|].
      rewrite (lev_fun _ _ Lc' _ L) in *. symmetry. auto.
    + rewrite E in E'. injection E' as <- <-. auto.
Qed.

Fixpoint pfrom (seen l : list string) : Prop :=
  match l with nil => True | x :: t => In (parent m x) seen /\ pfrom (x :: seen) t end.
Lemma pfrom_mono l : forall s s', incl s s' -> pfrom s l -> pfrom s' l.
Proof.
  induction l as [|x t IH]; intros s s' I H; [exact Logic.I|]. destruct H as [H1 H2]. split; [auto|].
  eapply IH; [|exact H2]. intros y [<-|Hy]; [left; auto|right; auto].
Qed.
Lemma pfrom_app a : forall s b, pfrom s a -> pfrom (rev a ++ s) b -> pfrom s (a ++ b).
Proof.
  induction a as [|x t IH]; intros s b A B; [exact B|]. destruct A as [A1 A2]. split; auto. cbn in B.
  apply IH; auto. rewrite <- app_assoc in B. exact B.
Qed.
Lemma pfrom_split a : forall s x b, pfrom s (a ++ x :: b) -> In (parent m x) (rev a ++ s).
Proof.
  induction a as [|y t IH]; intros s x b H; [apply H|]. destruct H as [_ H]. cbn. rewrite <- app_assoc. eapply IH; eauto.
Qed.
Lemma pfrom_first n t : pfrom [n] t -> parents_first m (n :: t).
Proof.
  intros H a x b E N. destruct a as [|y a]; [congruence|]. cbn in E. injection E as <- ->.
  apply pfrom_split in H. apply in_app_or in H as [H|[H|[]]]; [right; now apply in_rev|left; auto].
Qed.

Lemma below_kid n x : below m n x -> x = n \/ exists c, In c names /\ parent m c = n /\ below m c x.
Proof.
  induction 1 as [|x rb p E B [->|(c & C & P & D)]]; auto; right.
  - exists x. split; [eauto using some_in|]. split; [unfold parent; now rewrite E|constructor].
  - exists c. repeat split; auto. econstructor; eauto.
Qed.
Lemma below_up c n x : In c names -> parent m c = n -> below m c x -> below m n x.
Proof.
  intros C P H. induction H; [|econstructor; eauto].
  destruct (look c C) as (rb & p & E & _). econstructor; [exact E|]. unfold parent in P. rewrite E in P. subst. constructor.
Qed.

Lemma dfs_spec fuel : forall n k, lev m root n k -> k + fuel = List.length names ->
  exists t, dfs m names fuel n = Ok (n :: t) /\ NoDup (n :: t) /\ (forall x, In x (n :: t) <-> below m n x) /\ pfrom [n] t.
Proof.
  induction fuel as [|fuel IH]; intros n k L F.
  { pose proof (lev_bound _ _ L). lia. }
  cbn [dfs].
  assert (Kids : forall l, incl l names -> NoDup l -> exists b,
    (fix children (l : list string) : res (list string) :=
               match l with
               | nil => Ok nil
               | c :: t =>
                   bind (r_at m c) (fun '(_, p) =>
                   if String.eqb p n then
                     bind (dfs m names fuel c) (fun a => bind (children t) (fun b => Ok (a ++ b)%list))
                   else children t)
               end) l = Ok b /\ NoDup b /\ pfrom [n] b /\
      (forall x, In x b <-> exists c, In c l /\ parent m c = n /\ below m c x)).
  { induction l as [|c l IHl]; intros I N.
    - exists nil. repeat split; try constructor; [intros []|intros (c & [] & _)].
    - inversion N as [|? ? Nc Nl]; subst. destruct IHl as (b & Eb & Nb & Pb & Ib); auto.
      { intros x H. apply I. now right. }
      destruct (look c) as (rb & p & Ec & Hp); [apply I; now left|].
      unfold r_at at 1. rewrite Ec. unfold lookup_or_throw at 1. rewrite bind_ok. cbv beta iota. destruct (String.eqb_spec p n) as [->|Np].
      + assert (Lc : lev m root c (Datatypes.S k)) by (econstructor; eauto).
        destruct (IH c _ Lc ltac:(lia)) as (t & Et & Nt & It & Pt). rewrite Et, bind_ok, Eb, bind_ok.
        assert (Pc : parent m c = n) by (unfold parent; now rewrite Ec).
        exists ((c :: t) ++ b)%list. split; [reflexivity|]. split; [|split].
        * apply NoDup_disj; auto.
          intros x H2 H1. apply It in H2. apply Ib in H1 as (c' & C1 & C2 & C3).
          destruct (look c') as (rb' & p' & E' & _); [apply I; now right|]. unfold parent in C2. rewrite E' in C2. subst p'.
          assert (Lc' : lev m root c' (Datatypes.S k)) by (econstructor; eauto).
          apply Nc. rewrite (below_fun _ _ _ _ Lc Lc' H2 C3). exact C1.
        * apply pfrom_app.
          { split; [left; auto|]. eapply pfrom_mono; [|exact Pt]. intros y [<-|[]]. now left. }
          eapply pfrom_mono; [|exact Pb]. intros y [<-|[]]. apply in_or_app. right. now left.
        * intros x. rewrite in_app_iff, It, Ib. split.
          { intros [H|(c' & C1 & C2 & C3)]; [exists c; split; [now left|auto]|exists c'; split; [now right|auto]]. }
          { intros (c' & [<-|C1] & C2 & C3); [now left|right; eauto]. }
      + exists b. split; [exact Eb|]. split; [exact Nb|]. split; [exact Pb|].
        intros x. rewrite Ib. split; intros (c' & C1 & C2 & C3).
        * exists c'. repeat split; auto. now right.
        * destruct C1 as [<-|C1]; [|exists c'; auto]. exfalso. unfold parent in C2. rewrite Ec in C2. auto. }
  destruct (Kids names (incl_refl _) (lk_distinct _ _ OK)) as (b & Eb & Nb & Pb & Ib).
  exists b. rewrite Eb. split; [reflexivity|]. split; [|split; auto].
  - constructor; auto. intros H. apply Ib in H as (c & C & P & B).
    destruct (look c C) as (rb & p & E & _). unfold parent in P. rewrite E in P. subst p.
    destruct (below_lev _ _ (lev_S m root _ _ _ _ E L) _ B) as (j & J & Lj & _).
    pose proof (lev_fun _ _ L _ Lj). lia.
  - intros x. cbn [In]. rewrite Ib. split.
    + intros [<-|(c & C & P & B)]; [constructor|eauto using below_up].
    + intros H. apply below_kid in H as [->|H]; auto.
Qed.

Lemma dfs_root : exists t, dfs m names (List.length names) root = Ok (root :: t) /\ NoDup (root :: t) /\
  (forall x, In x (root :: t) <-> below m root x) /\ pfrom [root] t.
Proof. eapply dfs_spec; [apply lev_0|reflexivity]. Qed.
End Order.

Lemma find_root_spec (m : rmap) root a b : (forall n, In n (a ++ root :: b) -> m n <> None) ->
  parent m root = ""%string -> Forall (fun n => parent m n <> ""%string) a -> find_root m (a ++ root :: b) = Ok (Some root).
Proof.
  intros I R F. induction a as [|x a IH]; cbn [app find_root]; unfold r_at.
  - assert (N := I root (or_introl eq_refl)). unfold parent in R. destruct (m root) as [[rb p]|]; [|congruence]. cbn. now subst.
  - assert (N := I x (or_introl eq_refl)). inversion F; subst. unfold parent in H1. destruct (m x) as [[rb p]|]; [|congruence].
    cbn. destruct (String.eqb_spec p "") as [->|_]; [congruence|]. apply IH; auto. intros n H. apply I. now right.
Qed.
Lemma find_root_none (m : rmap) l : (forall n, In n l -> m n <> None) ->
  Forall (fun n => parent m n <> ""%string) l -> find_root m l = Ok None.
Proof.
  induction l as [|x a IH]; intros I F; [reflexivity|]; cbn [find_root]; unfold r_at.
  assert (N := I x (or_introl eq_refl)). inversion F; subst. unfold parent in H1. destruct (m x) as [[rb p]|]; [|congruence].
  cbn. destruct (String.eqb_spec p "") as [->|_]; [congruence|]. apply IH; auto. intros n H. apply I. now right.
Qed.

Lemma order (m : rmap) names root : links_ok m names -> first_root m names root ->
  exists t, sort_links m names = Ok (root :: t) /\ NoDup (root :: t) /\
    (forall n, In n (root :: t) <-> below m root n) /\ parents_first m (root :: t).
Proof.
  intros OK (a & b & E & R & F). unfold sort_links.
  assert (Fr : find_root m names = Ok (Some root)).
  { rewrite E. apply find_root_spec; auto. rewrite <- E. intros n. apply (proj1 (lk_in _ _ OK n)). }
  rewrite Fr, bind_ok. destruct (dfs_root m names root OK) as (t & Et & Nt & It & Pt); auto.
  { rewrite E. apply in_or_app. right. now left. }
  exists t. repeat split; auto; try apply It. now apply pfrom_first.
Qed.
Lemma rootless (m : rmap) names : links_ok m names -> Forall (fun n => parent m n <> ""%string) names ->
  sort_links m names = UB.
Proof.
  intros OK F. unfold sort_links. rewrite find_root_none; auto. intros n. apply (proj1 (lk_in _ _ OK n)).
Qed.
End UrdfProofs.
