(** The robots of a MATLAB program (C70). *)
From Coq Require Import List Arith ZArith Bool String Lia.
From Verif Require Import Scalar Base Spatial Joint Body Matlab MatObj SpecMatObj.
Import ListNotations.
Local Open Scope nat_scope.

(** The smallest free address: what has been freed is used again. *)
Definition reuse (n : nat) (live : list nat) : nat :=
  match filter (fun a => negb (existsb (Nat.eqb a) live)) (seq 1 (Datatypes.S (List.length live))) with
  | a :: _ => a
  | [] => Datatypes.S (list_max live)
  end.
Lemma in_max l x : In x l -> x <= list_max l.
Proof. induction l as [|y l IH]; intros []; cbn; fold (list_max l); [subst; lia|pose proof (IH H); lia]. Qed.
Lemma reuse_honest : honest reuse.
Proof.
  intros n live. unfold reuse. destruct (filter _ _) as [|a r] eqn:E; [split; [discriminate|intros H; pose proof (in_max _ _ H); lia]|].
  assert (H : In a (filter (fun a => negb (existsb (Nat.eqb a) live)) (seq 1 (Datatypes.S (List.length live))))) by (rewrite E; left; reflexivity).
  apply filter_In in H. destruct H as [H N]. apply in_seq in H. split; [lia|]. intros I. apply negb_true_iff in N. assert (X : existsb (Nat.eqb a) live = true) by (apply existsb_exists; exists a; rewrite Nat.eqb_refl; auto). congruence.
Qed.

Section Gen.
Context {S : Scal}.
Implicit Types (m : list (nat * @body S)) (w : world S) (i : idea S) (p : list (mop S)).

Lemma find_cons a b ab m : find_at b ((a, ab) :: m) = if Nat.eqb a b then Some ab else find_at b m.
Proof. unfold find_at. cbn [find fst]. destruct (Nat.eqb a b); reflexivity. Qed.
Lemma find_put a b ab m : find_at b (put_at a ab m) = if Nat.eqb b a then option_map (fun _ => ab) (find_at b m) else find_at b m.
Proof.
  induction m as [|[c x] m IH]; [destruct (Nat.eqb b a); reflexivity|]. cbn [put_at map fst]. fold (put_at a ab m). destruct (Nat.eqb c a) eqn:E; rewrite !find_cons, IH.
  - apply Nat.eqb_eq in E. subst c. rewrite (Nat.eqb_sym b a). destruct (Nat.eqb a b) eqn:F; reflexivity.
  - destruct (Nat.eqb c b) eqn:F; [|reflexivity]. apply Nat.eqb_eq in F. subst c. rewrite E. reflexivity.
Qed.
Lemma find_free a b m : find_at b (free_at a m) = if Nat.eqb b a then None else find_at b m.
Proof.
  induction m as [|[c x] m IH]; [destruct (Nat.eqb b a); reflexivity|]. cbn [free_at filter fst]. fold (free_at a m). destruct (Nat.eqb c a) eqn:E; cbn [negb]; rewrite !find_cons, IH.
  - apply Nat.eqb_eq in E. subst c. rewrite (Nat.eqb_sym b a). destruct (Nat.eqb a b); reflexivity.
  - destruct (Nat.eqb c b) eqn:F; [|reflexivity]. apply Nat.eqb_eq in F. subst c. rewrite E. reflexivity.
Qed.
Lemma find_in a m : In a (map fst m) <-> exists ab, find_at a m = Some ab.
Proof.
  induction m as [|[c x] m IH]; [cbn; split; [tauto|intros [? H]; discriminate]|]. cbn [map fst In]. rewrite find_cons. destruct (Nat.eqb c a) eqn:E.
  - apply Nat.eqb_eq in E. split; [eauto|auto].
  - apply Nat.eqb_neq in E. rewrite IH. split; [intros [H|H]; [contradiction|auto]|auto].
Qed.

(** The addresses [A] of the robots, in the order they were loaded. *)
Record sim (A : list nat) w i : Prop := {
  s_len : List.length A = List.length (i_robots i);
  s_vars : forall v, w_vars w v = match i_vars i v with Some k => nth_error A k | None => None end;
  s_rng : forall v k, i_vars i v = Some k -> k < List.length A;
  s_null : forall k a, nth_error A k = Some a -> a <> 0;
  s_mem : forall k a, nth_error A k = Some a -> alive i k = true -> find_at a (w_mem w) = nth_error (i_robots i) k;
  s_inj : forall j k a, alive i j = true -> alive i k = true -> nth_error A j = Some a -> nth_error A k = Some a -> j = k }.

Lemma nth_replace {B} (l : list B) k x j : k < List.length l -> nth_error (replace l k x) j = if Nat.eqb j k then Some x else nth_error l j.
Proof. revert k j; induction l as [|y l IH]; intros [|k] [|j] H; cbn in *; try lia; try reflexivity. apply IH. lia. Qed.
Lemma len_replace {B} (l : list B) k x : List.length (replace l k x) = List.length l.
Proof. revert k; induction l as [|y l IH]; intros [|k]; cbn; auto. Qed.
Lemma nth_lt {B} (l : list B) k : k < List.length l -> exists x, nth_error l k = Some x.
Proof. intros H. destruct (nth_error l k) eqn:E; [eauto|]. apply nth_error_None in E. lia. Qed.
Lemma nth_snoc {B} (l : list B) x k : nth_error (l ++ [x]) k = if Nat.eqb k (List.length l) then Some x else nth_error l k.
Proof. revert k; induction l as [|y l IH]; intros [|k]; cbn; try reflexivity; [destruct k; reflexivity|apply IH]. Qed.

Lemma sim_load alloc A w i v ab : honest alloc -> sim A w i ->
  let a := alloc (w_count w) (map fst (w_mem w)) in
  sim (A ++ [a]) (World (set_var v (Some a) (w_vars w)) ((a, ab) :: w_mem w) (Datatypes.S (w_count w)))
    (Idea (is_var v (Some (List.length (i_robots i))) (i_vars i)) (i_robots i ++ [ab]) (i_gone i)).
Proof.
  intros H s a. destruct (H (w_count w) (map fst (w_mem w))) as [N F]. fold a in N, F.
  assert (Fn : find_at a (w_mem w) = None) by (destruct (find_at a (w_mem w)) eqn:E; [exfalso; apply F, find_in; eauto|reflexivity]).
  assert (New : forall k, alive i k = true -> nth_error A k <> Some a).
  { intros k L E. pose proof (s_mem _ _ _ s _ _ E L) as M. rewrite Fn in M. symmetry in M. apply nth_error_None in M. rewrite <- (s_len _ _ _ s) in M. apply nth_error_None in M. congruence. }
  constructor; cbn [w_vars w_mem i_vars i_robots i_gone].
  - rewrite !app_length. cbn. rewrite (s_len _ _ _ s). reflexivity.
  - intros u. unfold set_var, is_var. destruct (String.eqb u v); [rewrite nth_snoc, <- (s_len _ _ _ s), Nat.eqb_refl; reflexivity|].
    rewrite (s_vars _ _ _ s u). destruct (i_vars i u) as [k|] eqn:E; [|reflexivity]. rewrite nth_snoc. pose proof (s_rng _ _ _ s _ _ E). destruct (Nat.eqb_spec k (List.length A)); [lia|reflexivity].
  - intros u k. unfold is_var. rewrite app_length. cbn. destruct (String.eqb u v); [intros E; inversion E; rewrite (s_len _ _ _ s); lia|intros E; pose proof (s_rng _ _ _ s _ _ E); lia].
  - intros k b E. rewrite nth_snoc in E. destruct (Nat.eqb k _); [inversion E; subst; auto|apply (s_null _ _ _ s k b E)].
  - intros k b E L. rewrite nth_snoc in E. rewrite nth_snoc, <- (s_len _ _ _ s), find_cons. destruct (Nat.eqb_spec k (List.length A)).
    + inversion E; subst. rewrite Nat.eqb_refl. reflexivity.
    + destruct (Nat.eqb_spec a b); [subst; exfalso; apply (New k L E)|apply (s_mem _ _ _ s k b E L)].
  - intros j k b Lj Lk Ej Ek. rewrite nth_snoc in Ej, Ek. destruct (Nat.eqb_spec j (List.length A)), (Nat.eqb_spec k (List.length A)); [lia| | |apply (s_inj _ _ _ s j k b); auto].
    + inversion Ej; subst b. exfalso. apply (New k Lk Ek).
    + inversion Ek; subst b. exfalso. apply (New j Lj Ej).
Qed.
Lemma sim_var A w i v x k : sim A w i -> (x = None /\ k = None \/ exists n, k = Some n /\ n < List.length A /\ x = nth_error A n) ->
  sim A (World (set_var v x (w_vars w)) (w_mem w) (w_count w)) (Idea (is_var v k (i_vars i)) (i_robots i) (i_gone i)).
Proof.
  intros s H. constructor; cbn [w_vars w_mem i_vars i_robots i_gone]; try apply s.
  - intros u. unfold set_var, is_var. destruct (String.eqb u v); [|apply s]. destruct H as [[-> ->]|(n & -> & _ & ->)]; reflexivity.
  - intros u n. unfold is_var. destruct (String.eqb u v); [|apply s]. intros ->. destruct H as [[_ E]|(n' & E & L & _)]; inversion E; subst; auto.
Qed.
Lemma alive_cons i k j : alive (Idea (i_vars i) (i_robots i) (k :: i_gone i)) j = negb (Nat.eqb j k) && alive i j.
Proof. unfold alive. cbn [i_gone existsb]. apply negb_orb. Qed.
Lemma sim_delete A w i k a : sim A w i -> nth_error A k = Some a -> alive i k = true ->
  sim A (World (w_vars w) (free_at a (w_mem w)) (w_count w)) (Idea (i_vars i) (i_robots i) (k :: i_gone i)).
Proof.
  intros s E L. constructor; cbn [w_vars w_mem i_vars i_robots]; try apply s.
  - intros j b Ej Lj. rewrite alive_cons in Lj. apply andb_true_iff in Lj. destruct Lj as [N Lj]. apply negb_true_iff, Nat.eqb_neq in N. rewrite find_free. destruct (Nat.eqb_spec b a); [|apply (s_mem _ _ _ s j b Ej Lj)].
    subst b. exfalso. apply N. apply (s_inj _ _ _ s j k a); auto.
  - intros j j' b Lj Lj'. rewrite alive_cons in Lj, Lj'. apply andb_true_iff in Lj, Lj'. apply (s_inj _ _ _ s); tauto.
Qed.
Lemma sim_call A w i k a ab : sim A w i -> nth_error A k = Some a -> alive i k = true ->
  sim A (World (w_vars w) (put_at a ab (w_mem w)) (w_count w)) (Idea (i_vars i) (replace (i_robots i) k ab) (i_gone i)).
Proof.
  intros s E L. assert (Hk : k < List.length (i_robots i)) by (rewrite <- (s_len _ _ _ s); apply nth_error_Some; congruence).
  constructor; cbn [w_vars w_mem i_vars i_robots]; try apply s.
  - rewrite len_replace. apply s.
  - intros j b Ej Lj. change (alive i j = true) in Lj. rewrite find_put, nth_replace by auto. destruct (Nat.eqb_spec j k).
    + subst j. assert (b = a) by congruence. subst b. rewrite Nat.eqb_refl, (s_mem _ _ _ s k a E L). destruct (nth_lt _ _ Hk) as [x X]. rewrite X. reflexivity.
    + destruct (Nat.eqb_spec b a); [subst b; exfalso; apply n; apply (s_inj _ _ _ s j k a); auto|apply (s_mem _ _ _ s j b Ej Lj)].
Qed.

Lemma outputs_bind w (l : list (option (@marr S))) (r : res (world S * list (option (@marr S)))) :
  outputs (bind r (fun '(w, l') => Ok (w, l ++ l'))) = bind (outputs r) (fun l' => Ok (l ++ l')).
Proof. destruct r as [[? ?]| |]; reflexivity. Qed.

Lemma sim_run alloc p : honest alloc -> forall A w i r, sim A w i -> meant p i = Some r -> outputs (mat_run alloc p w) = r.
Proof.
  intros H. induction p as [|o p IH]; intros A w i r s M; [inversion M; reflexivity|].
  destruct o as [v ab|v u|v|v|v f]; cbn [mat_run mat_step meant bind] in *.
  - rewrite (outputs_bind w). rewrite (IH _ _ _ _ (sim_load alloc A w i v ab H s) M). destruct r; reflexivity.
  - rewrite (s_vars _ _ _ s u). destruct (i_vars i u) as [k|] eqn:E; [|inversion M; reflexivity]. pose proof (s_rng _ _ _ s _ _ E) as Hk. destruct (nth_lt _ _ Hk) as [a Ea]. rewrite Ea. cbn [bind]. rewrite (outputs_bind w).
    rewrite (IH A _ _ r (sim_var A w i v (Some a) (Some k) s ltac:(right; exists k; auto)) M). destruct r; reflexivity.
  - rewrite (outputs_bind w). rewrite (IH A _ _ r (sim_var A w i v None None s ltac:(left; auto)) M). destruct r; reflexivity.
  - rewrite (s_vars _ _ _ s v). destruct (i_vars i v) as [k|] eqn:E; [|inversion M; reflexivity]. pose proof (s_rng _ _ _ s _ _ E) as Hk. destruct (nth_lt _ _ Hk) as [a Ea]. rewrite Ea.
    destruct (alive i k) eqn:L; [|discriminate]. destruct (Nat.eqb_spec a 0) as [N|_]; [exfalso; apply (s_null _ _ _ s k a Ea N)|].
    rewrite (s_mem _ _ _ s k a Ea L). rewrite (s_len _ _ _ s) in Hk. destruct (nth_lt _ _ Hk) as [x X]. rewrite X. cbn [bind]. rewrite (outputs_bind w).
    rewrite (IH A _ _ r (sim_delete A w i k a s Ea L) M). destruct r; reflexivity.
  - rewrite (s_vars _ _ _ s v). destruct (i_vars i v) as [k|] eqn:E; [|inversion M; reflexivity]. pose proof (s_rng _ _ _ s _ _ E) as Hk. destruct (nth_lt _ _ Hk) as [a Ea]. rewrite Ea.
    destruct (alive i k) eqn:L; [|discriminate]. destruct (Nat.eqb_spec a 0) as [N|_]; [exfalso; apply (s_null _ _ _ s k a Ea N)|].
    rewrite (s_mem _ _ _ s k a Ea L). destruct (nth_error (i_robots i) k) as [x|] eqn:X; [|discriminate].
    destruct (f x) as [[ab' out]| |]; cbn [bind] in *; try (inversion M; reflexivity). rewrite (outputs_bind w).
    destruct (meant p _) as [r'|] eqn:M'; [|discriminate]. rewrite (IH A _ _ r' (sim_call A w i k a ab' s Ea L) M'). destruct r'; inversion M; reflexivity.
Qed.
Lemma sim_start : sim [] (@world0 S) idea0.
Proof. constructor; cbn; try reflexivity; intros; try discriminate; destruct k; discriminate. Qed.
Lemma c70_meant alloc p r : honest alloc -> meant p (@idea0 S) = Some r -> outputs (mat_run alloc p world0) = r.
Proof. intros H M. apply (sim_run alloc p H [] world0 idea0 r sim_start M). Qed.

(** An allocator that uses no address twice. *)
Definition onward (n : nat) (live : list nat) : nat := Datatypes.S (Nat.max n (list_max live)).
Lemma onward_honest : honest onward.
Proof.
  intros n live. split; [discriminate|]. intros H. assert (X : forall l x, In x l -> x <= list_max l). { induction l as [|y l IH]; intros x []; cbn; [subst; lia|pose proof (IH x H0); fold (list_max l); lia]. }
  pose proof (X _ _ H). unfold onward in *. lia.
Qed.
(** What [sim] leaves out: addresses count up, and nothing is at the address of a robot that
    is gone. *)
Record tidy (A : list nat) w i : Prop := {
  t_sim : sim A w i;
  t_A : A = seq 1 (w_count w);
  t_mem : forall a, In a (map fst (w_mem w)) -> a <= w_count w;
  t_gone : forall k, alive i k = false -> k < List.length A;
  t_none : forall k a, alive i k = false -> nth_error A k = Some a -> find_at a (w_mem w) = None }.
Lemma max_le l n : (forall a, In a l -> a <= n) -> list_max l <= n.
Proof. induction l as [|x l IH]; cbn; intros H; [lia|]. fold (list_max l). specialize (IH ltac:(auto)). pose proof (H x (or_introl eq_refl)). lia. Qed.
Lemma put_keys a ab m : map fst (put_at a ab m) = map fst m.
Proof. induction m as [|[c x] m IH]; [reflexivity|]. cbn. rewrite <- IH. destruct (Nat.eqb c a); reflexivity. Qed.
Lemma free_keys a m b : In b (map fst (free_at a m)) -> In b (map fst m).
Proof. rewrite !find_in. rewrite find_free. destruct (Nat.eqb b a); [intros [? ?]; discriminate|auto]. Qed.
Local Ltac onto IH M A1 s1 :=
  match goal with |- bind (mat_run onward ?p ?w1) _ = UB => match type of M with meant p ?i1 = None =>
    let T := fresh "T" in assert (T : tidy A1 w1 i1); [constructor; [exact s1|..]; cbn [w_count w_mem]|rewrite (IH _ _ _ T M); reflexivity] end end.
Lemma tidy_run p : forall A w i, tidy A w i -> meant p i = None -> mat_run onward p w = UB.
Proof.
  induction p as [|o p IH]; intros A w i t M; [discriminate|]. pose proof (t_sim _ _ _ t) as s.
  destruct o as [v ab|v u|v|v|v f]; cbn [mat_run mat_step meant bind] in *.
  - pose proof (sim_load onward A w i v ab onward_honest s) as s'. cbv zeta in s'.
    assert (Ea : onward (w_count w) (map fst (w_mem w)) = Datatypes.S (w_count w)) by (unfold onward; pose proof (max_le _ _ (t_mem _ _ _ t)); lia). rewrite Ea in *.
    onto IH M (A ++ [Datatypes.S (w_count w)]) s'.
    + rewrite (t_A _ _ _ t), seq_S. reflexivity.
    + intros a [Ha|Ha]; [cbn in Ha; lia|pose proof (t_mem _ _ _ t a Ha); lia].
    + intros k L. rewrite app_length. pose proof (t_gone _ _ _ t k L). lia.
    + intros k a L E. change (alive i k = false) in L. pose proof (t_gone _ _ _ t k L) as Hk. rewrite nth_snoc in E. destruct (Nat.eqb_spec k (List.length A)); [lia|]. rewrite find_cons.
      destruct (Nat.eqb_spec (Datatypes.S (w_count w)) a); [|apply (t_none _ _ _ t k a L E)]. subst a. exfalso. rewrite (t_A _ _ _ t) in E. apply nth_error_In, in_seq in E. lia.
  - rewrite (s_vars _ _ _ s u). destruct (i_vars i u) as [k|] eqn:E; [|discriminate]. pose proof (s_rng _ _ _ s _ _ E) as Hk. destruct (nth_lt _ _ Hk) as [a Ea]. rewrite Ea. cbn [bind].
    rewrite (IH A _ _ ltac:(constructor; [exact (sim_var A w i v (Some a) (Some k) s ltac:(right; exists k; auto))|apply t|apply t|apply (t_gone _ _ _ t)|apply (t_none _ _ _ t)]) M). reflexivity.
  - rewrite (IH A _ _ ltac:(constructor; [exact (sim_var A w i v None None s ltac:(left; auto))|apply t|apply t|apply (t_gone _ _ _ t)|apply (t_none _ _ _ t)]) M). reflexivity.
  - rewrite (s_vars _ _ _ s v). destruct (i_vars i v) as [k|] eqn:E; [|discriminate]. pose proof (s_rng _ _ _ s _ _ E) as Hk. destruct (nth_lt _ _ Hk) as [a Ea]. rewrite Ea.
    destruct (Nat.eqb_spec a 0) as [N|_]; [exfalso; apply (s_null _ _ _ s k a Ea N)|]. destruct (alive i k) eqn:L.
    + rewrite (s_mem _ _ _ s k a Ea L). rewrite (s_len _ _ _ s) in Hk. destruct (nth_lt _ _ Hk) as [x X]. rewrite X. cbn [bind].
      onto IH M A (sim_delete A w i k a s Ea L).
      * apply t.
      * intros b Hb. apply (t_mem _ _ _ t). apply (free_keys a). exact Hb.
      * intros j Lj. rewrite alive_cons in Lj. apply andb_false_iff in Lj. destruct Lj as [Lj|Lj]; [apply negb_false_iff, Nat.eqb_eq in Lj; subst; rewrite (s_len _ _ _ s); auto|apply (t_gone _ _ _ t j Lj)].
      * intros j b Lj Ej. rewrite alive_cons in Lj. rewrite find_free. apply andb_false_iff in Lj. destruct Lj as [Lj|Lj]; [apply negb_false_iff, Nat.eqb_eq in Lj; subst; assert (b = a) by congruence; subst; rewrite Nat.eqb_refl; reflexivity|].
        destruct (Nat.eqb b a); [reflexivity|apply (t_none _ _ _ t j b Lj Ej)].
    + rewrite (t_none _ _ _ t k a L Ea). reflexivity.
  - rewrite (s_vars _ _ _ s v). destruct (i_vars i v) as [k|] eqn:E; [|discriminate]. pose proof (s_rng _ _ _ s _ _ E) as Hk. destruct (nth_lt _ _ Hk) as [a Ea]. rewrite Ea.
    destruct (Nat.eqb_spec a 0) as [N|_]; [exfalso; apply (s_null _ _ _ s k a Ea N)|]. destruct (alive i k) eqn:L.
    + rewrite (s_mem _ _ _ s k a Ea L). rewrite (s_len _ _ _ s) in Hk. destruct (nth_lt _ _ Hk) as [x X]. rewrite X in *. destruct (f x) as [[ab' out]| |]; try discriminate. cbn [bind].
      destruct (meant p _) as [[?| |]|] eqn:M'; try discriminate.
      onto IH M' A (sim_call A w i k a ab' s Ea L).
      * apply t.
      * rewrite put_keys. apply t.
      * apply (t_gone _ _ _ t).
      * intros j b Lj Ej. change (alive i j = false) in Lj. rewrite find_put, (t_none _ _ _ t j b Lj Ej). destruct (Nat.eqb b a); reflexivity.
    + rewrite (t_none _ _ _ t k a L Ea). reflexivity.
Qed.
Lemma c70_misuse p : meant p (@idea0 S) = None -> exists alloc, honest alloc /\ mat_run alloc p world0 = UB.
Proof.
  intros M. exists onward. split; [apply onward_honest|]. apply (tidy_run p [] world0 idea0); [|exact M].
  constructor; [apply sim_start|reflexivity|intros ? []|discriminate|discriminate].
Qed.

(** Nothing but delete frees a robot. *)
Lemma free_count a m : NoDup (map fst m) -> (exists ab, find_at a m = Some ab) -> Datatypes.S (List.length (free_at a m)) = List.length m.
Proof.
  induction m as [|[c x] m IH]; intros N [ab F]; [discriminate|]. rewrite find_cons in F. cbn [free_at filter fst map] in *. fold (free_at a m). inversion N as [|? ? N1 N2]; subst.
  destruct (Nat.eqb_spec c a); cbn [negb List.length].
  - subst c. f_equal. assert (X : forall l, ~ In a (map fst l) -> free_at a l = l). { clear. induction l as [|[c x] l IH]; cbn; intros H; [reflexivity|]. destruct (Nat.eqb_spec c a); [tauto|]. cbn. f_equal. apply IH. tauto. }
    rewrite X; auto.
  - f_equal. apply IH; eauto.
Qed.
Lemma free_nodup a m : NoDup (map fst m) -> NoDup (map fst (free_at a m)).
Proof.
  induction m as [|[c x] m IH]; intros N; [constructor|]. inversion N as [|? ? N1 N2]; subst. cbn [free_at filter fst]. fold (free_at a m). destruct (negb _); [|auto]. cbn [map fst]. constructor; [|auto]. intros H. apply N1, (free_keys a). exact H.
Qed.
Lemma count_run alloc p : honest alloc -> forall w w' l, NoDup (map fst (w_mem w)) -> (forall v a, w_vars w v = Some a -> a <> 0) ->
  mat_run alloc p w = Ok (w', l) -> List.length (w_mem w') + deletes p = List.length (w_mem w) + loads p.
Proof.
  intros H. induction p as [|o p IH]; intros w w' l N Z E; cbn [mat_run] in E; [inversion E; reflexivity|].
  destruct (mat_step alloc o w) as [[w1 l1]| |] eqn:E1; try discriminate. cbn [bind] in E. destruct (mat_run alloc p w1) as [[w2 l2]| |] eqn:E2; try discriminate. cbn [bind] in E. inversion E; subst w2 l; clear E.
  destruct o as [v ab|v u|v|v|v f]; cbn [mat_step] in E1; unfold loads, deletes in *; cbn [filter].
  - inversion E1; subst; clear E1. destruct (H (w_count w) (map fst (w_mem w))) as [Na Fa]. pose proof (fun A B => IH _ _ _ A B E2) as IHx; specialize (IHx ltac:(cbn; constructor; auto) ltac:(cbn; unfold set_var; intros u a; destruct (String.eqb u v); [intros X; inversion X; subst; auto|apply Z])). clear IH; cbn in *; lia.
  - destruct (w_vars w u) as [a|] eqn:V; [|discriminate]. inversion E1; subst; clear E1. pose proof (fun A B => IH _ _ _ A B E2) as IHx; specialize (IHx ltac:(cbn; auto) ltac:(cbn; unfold set_var; intros u' a'; destruct (String.eqb u' v); [intros X; inversion X; subst; apply (Z _ _ V)|apply Z])). clear IH; cbn in *; lia.
  - inversion E1; subst; clear E1. pose proof (fun A B => IH _ _ _ A B E2) as IHx; specialize (IHx ltac:(cbn; auto) ltac:(cbn; unfold set_var; intros u' a'; destruct (String.eqb u' v); [discriminate|apply Z])). clear IH; cbn in *; lia.
  - destruct (w_vars w v) as [a|] eqn:V; [|discriminate]. destruct (Nat.eqb_spec a 0); [exfalso; apply (Z _ _ V e)|]. destruct (find_at a (w_mem w)) as [x|] eqn:F; [|discriminate]. inversion E1; subst; clear E1.
    pose proof (fun A B => IH _ _ _ A B E2) as IHx; specialize (IHx ltac:(cbn; apply free_nodup; auto) ltac:(cbn; auto)). pose proof (free_count a (w_mem w) N ltac:(eauto)). clear IH; cbn in *; lia.
  - destruct (w_vars w v) as [a|] eqn:V; [|discriminate]. destruct (Nat.eqb_spec a 0); [exfalso; apply (Z _ _ V e)|]. destruct (find_at a (w_mem w)) as [x|] eqn:F; [|discriminate]. destruct (f x) as [[ab' out]| |]; try discriminate. inversion E1; subst; clear E1.
    pose proof (fun A B => IH _ _ _ A B E2) as IHx; specialize (IHx ltac:(cbn; rewrite put_keys; auto) ltac:(cbn; auto)). clear IH; cbn in *. unfold put_at in IHx; rewrite map_length in IHx. lia.
Qed.
Lemma c70_leak alloc p w l : honest alloc -> mat_run alloc p (@world0 S) = Ok (w, l) -> List.length (w_mem w) + deletes p = loads p.
Proof. intros H E. rewrite (count_run alloc p H world0 w l); [reflexivity|constructor|cbn; discriminate|exact E]. Qed.

(** Copies. *)
Lemma c70_copies alloc w u v w1 l f : u <> v -> mat_step alloc (MCopy v u) w = Ok (w1, l) -> mat_step alloc (MCall v f) w1 = mat_step alloc (MCall u f) w1.
Proof.
  intros N E. cbn [mat_step] in *. destruct (w_vars w u) as [a|] eqn:V; [|discriminate]. inversion E; subst; clear E. cbn [w_vars w_mem w_count]. unfold set_var. rewrite String.eqb_refl.
  destruct (String.eqb_spec u v); [contradiction|]. rewrite V. reflexivity.
Qed.
End Gen.
