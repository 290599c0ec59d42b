(** Links of a robot kept in Python variables while the robot is changed.

    [x = ab.rigid_bodies[i]] makes [x] a pointer into the storage of the vector of links
    (src/python/spatial_dyn.cc:156-159; PyEdit.v says why).  add_rigid_body appends to that
    vector (articulated_body.cc:248); std::vector moves its elements to new storage exactly
    when the capacity is used up, and the old storage is freed.  Python keeps the robot
    alive as long as [x], but not the old storage.

    Simplified: one robot; the storage is told apart by a count of moves, so that using a
    pointer into freed storage is always undefined behaviour, even if the memory has not
    been reused; variables hold links of this robot only. *)
From Coq Require Import List Arith ZArith Bool String.
From Verif Require Import Scalar Base Spatial Joint Body Ops PyEdit.
Import ListNotations.

Section PyKeep.
Context {S : Scal}.
Variable solve : list (list K) -> list K -> list K.
Variable pinv : list (list K) -> K -> list (list K) * bool.
(** The new capacity when [n] links fill the storage; chosen by the C++ library
    (articulated_body.cc:248). *)
Variable grow : nat -> nat.

(** Statements of a client program (src/python/spatial_dyn.cc:147-279). *)
Inductive kstmt :=
| KKeep (x : nat) (i : Z)             (* x = ab.rigid_bodies[i] *)
| KShow (x : nat)                     (* print(x), x.inertia, ... *)
| KEdit (x : nat) (e : link_edit)     (* x.attribute = value *)
| KAdd (x : nat) (p : Z)              (* ab.add_rigid_body(x, p) *)
| KCall (o : op).                     (* any other call; OCopy copies ab to a robot not followed *)

(** articulated_body.h:436: the robot, the capacity of its vector of links and how often
    the vector has moved; the variables (storage and position in it); what was shown. *)
Record kstate := Ks { k_ab : body; k_cap : nat; k_moves : nat; k_env : nat -> option (nat * nat); k_out : list rigid_body }.
(** articulated_body.cc:18-20: a vector without elements has no storage *)
Definition k_new (name : string) (mem : cache) : kstate := Ks (body_new name mem) 0 0 (fun _ => None) [].

(** articulated_body.cc:248 (push_back) and everything else: the robot is now [ab] *)
Definition k_put (ab : body) (s : kstate) : kstate :=
  let n := List.length (ab_rbs (k_ab s)) in
  if (n <? List.length (ab_rbs ab)) && (k_cap s <=? n)
  then Ks ab (grow n) (Datatypes.S (k_moves s)) (k_env s) (k_out s)
  else Ks ab (k_cap s) (k_moves s) (k_env s) (k_out s).

(** Using a variable (src/python/spatial_dyn.cc:240-279): [None] is undefined behaviour,
    a variable without value raises NameError and nothing happens. *)
Definition k_use (x : nat) (s : kstate) (f : nat -> option kstate) : option kstate :=
  match k_env s x with
  | None => Some s
  | Some (m, i) => if m =? k_moves s then f i else None
  end.

(** src/python/spatial_dyn.cc:147-279; an exception is caught by the program *)
Definition k_step (t : kstmt) (s : kstate) : option kstate :=
  match t with
  | KKeep x i =>
    match idx (List.length (ab_rbs (k_ab s))) i with
    | None => Some s
    | Some i => Some (Ks (k_ab s) (k_cap s) (k_moves s) (fun y => if y =? x then Some (k_moves s, i) else k_env s y) (k_out s))
    end
  | KShow x => k_use x s (fun i => Some (Ks (k_ab s) (k_cap s) (k_moves s) (k_env s) (k_out s ++ [nth i (ab_rbs (k_ab s)) rb_default])))
  | KEdit x e => k_use x s (fun i => option_map (fun ab => k_put ab s) (settled (edit_link (Z.of_nat i) e (k_ab s))))
  | KAdd x p => k_use x s (fun i => option_map (fun ab => k_put ab s) (step solve pinv (OAdd (nth i (ab_rbs (k_ab s)) rb_default) p) (k_ab s)))
  | KCall OCopy => Some s
  | KCall o => option_map (fun ab => k_put ab s) (step solve pinv o (k_ab s))
  end.
(** a client program; no particular lines *)
Fixpoint k_run (p : list kstmt) (s : kstate) : option kstate :=
  match p with
  | [] => Some s
  | t :: p => match k_step t s with Some s => k_run p s | None => None end
  end.
End PyKeep.
