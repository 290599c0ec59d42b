(** Proofs about attributes of links (C55). *)
From Coq Require Import List Arith ZArith Bool String Lia.
From Verif Require Import Scalar Base Spatial Joint Body Ops PyEdit SpecAttr TreeProofs CacheProofs CacheOps EditProofs.
Import ListNotations.
Local Open Scope nat_scope.

Section Attr.
Context {S : Scal}.
Lemma edit_rb_ok e rb : 
  if refused e rb then edit_rb e rb = Exn rb
  else exists rb', edit_rb e rb = Ret rb' tt /\ (forall a v, In (a, v) (assigned e) -> attr a rb' = v) /\ forall a, (forall v, ~ In (a, v) (assigned e)) -> attr a rb' = attr a rb.
Proof.
  destruct rb as [nm gr id pa T J j]. destruct j as [t s b1 b2 b3 b4 c1 c2 c3].
  destruct e; cbn [refused edit_rb assigned]; unfold on_inertia, on_joint, rb_set_inertia, set_q_min, set_q_max, set_q_limits, set_dq_max, set_fq_max, set_f_coulomb, set_f_viscous, set_f_stiction; cbn [rb_joint rb_set_joint jqmin jqmax rb_inertia].
  all: try match goal with |- context [jtype_of_string ?x] => destruct (jtype_of_string x) eqn:EJ end.
  all: cbv beta iota.
  all: repeat match goal with |- context [if ?b then _ else _] => destruct b; [reflexivity|] end.
  all: try reflexivity.
  all: try (eexists; split; [reflexivity|]; split;
       [intros at0 v0 H; cbn [In] in H; repeat (destruct H as [H|H]; [inversion H; subst; reflexivity|]); destruct H
       |intros at0 H; destruct at0; try reflexivity; exfalso; eapply H; cbn [In]; eauto 12]).
  (* UB *)
  exfalso. clear - EJ. unfold jtype_of_string in EJ. repeat match type of EJ with context [if ?b then _ else _] => destruct b end; discriminate.
Qed.
Lemma c55_assign i k e (ab : body) : idx (List.length (ab_rbs ab)) i = Some k ->
  if refused e (link k ab) then edit_link i e ab = Exn ab
  else exists ab', edit_link i e ab = Ret ab' tt /\
    (forall a v, In (a, v) (assigned e) -> attr a (link k ab') = v) /\
    (forall a, (forall v, ~ In (a, v) (assigned e)) -> attr a (link k ab') = attr a (link k ab)) /\
    (forall l, l <> k -> link l ab' = link l ab) /\ List.length (ab_rbs ab') = List.length (ab_rbs ab) /\ ab' = set_rbs (ab_rbs ab') ab.
Proof.
  intros E. unfold edit_link. rewrite E. pose proof (proj1 (idx_spec _ _ _) E) as [Hk _]. fold (link k ab). pose proof (edit_rb_ok e (link k ab)) as X. destruct (refused e (link k ab)).
  - rewrite X. unfold link. rewrite replace_nth_same by auto. destruct ab; reflexivity.
  - destruct X as (rb' & -> & X1 & X2). eexists. split; [reflexivity|]. 
    assert (Q : forall l, link l (set_rbs (replace_nth k rb' (ab_rbs ab)) ab) = if Nat.eqb l k then rb' else link l ab) by (intros l; unfold link; cbn [ab_rbs set_rbs]; rewrite nth_replace by auto; reflexivity).
    rewrite Q, Nat.eqb_refl. split; [auto|]. split; [auto|]. split; [|split].
    + intros l Hl. rewrite Q. apply Nat.eqb_neq in Hl. rewrite Hl. reflexivity.
    + cbn [ab_rbs set_rbs]. apply length_replace.
    + reflexivity.
Qed.
End Attr.
