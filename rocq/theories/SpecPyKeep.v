(** Specification: what programs keeping links mean (C72). *)
From Coq Require Import List Arith ZArith Bool String.
From Verif Require Import Scalar Base Spatial Joint Body Ops PyEdit PyKeep.
Import ListNotations.

Section SpecPyKeep.
Context {S : Scal}.
Variable solve : list (list K) -> list K -> list K.
Variable pinv : list (list K) -> K -> list (list K) * bool.

(** The intended reading: a variable is the number of a link, and using it is using the
    link which has that number now.  There is no storage. *)
Record meaning := Mn { m_ab : body; m_env : nat -> option nat; m_out : list rigid_body }.
Definition m_step (t : kstmt) (s : meaning) : option meaning :=
  let now ab := Mn ab (m_env s) (m_out s) in
  match t with
  | KKeep x i => Some (match idx (List.length (ab_rbs (m_ab s))) i with
                       | None => s
                       | Some i => Mn (m_ab s) (fun y => if y =? x then Some i else m_env s y) (m_out s)
                       end)
  | KShow x => Some (match m_env s x with
                     | None => s
                     | Some i => Mn (m_ab s) (m_env s) (m_out s ++ [nth i (ab_rbs (m_ab s)) rb_default])
                     end)
  | KEdit x e => match m_env s x with
                 | None => Some s
                 | Some i => option_map now (settled (edit_link (Z.of_nat i) e (m_ab s)))
                 end
  | KAdd x p => match m_env s x with
                | None => Some s
                | Some i => option_map now (step solve pinv (OAdd (nth i (ab_rbs (m_ab s)) rb_default) p) (m_ab s))
                end
  | KCall OCopy => Some s
  | KCall o => option_map now (step solve pinv o (m_ab s))
  end.
Fixpoint m_run (p : list kstmt) (s : meaning) : option meaning :=
  match p with
  | [] => Some s
  | t :: p => match m_step t s with Some s => m_run p s | None => None end
  end.
Definition m_new (name : string) (mem : cache) : meaning := Mn (body_new name mem) (fun _ => None) [].

(** Statements that keep a link, that give the variable [x] a value, and that add one. *)
Definition keeps (t : kstmt) : bool := match t with KKeep _ _ => true | _ => false end.
Definition assigns (x : nat) (t : kstmt) : bool := match t with KKeep y _ => y =? x | _ => false end.
Definition adds (t : kstmt) : bool := match t with KAdd _ _ | KCall (OAdd _ _) => true | _ => false end.
(** The number of links of the robot. *)
Definition links (ab : body) : nat := List.length (ab_rbs ab).
(** What a program did: the robot and what was shown. *)
Definition k_did (r : option kstate) : option (body * list rigid_body) := option_map (fun s => (k_ab s, k_out s)) r.
Definition m_did (r : option meaning) : option (body * list rigid_body) := option_map (fun s => (m_ab s, m_out s)) r.
End SpecPyKeep.
