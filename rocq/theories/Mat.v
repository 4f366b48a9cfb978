(** The matrix operations of numpy used by CMA-ES and VD-CMA (matrices are lists of rows). *)
From Verif Require Import Base Num Env.

Section Mat.
  Context {A : Arith}.
  Local Open Scope num_scope.

  Definition mget (m : list (list T)) (i j : nat) : T := nth j (nth i m []) n0.
  Definition mtab (r c : nat) (f : nat -> nat -> T) : list (list T) :=
    map (fun i => map (fun j => f i j) (seq 0 c)) (seq 0 r).
  Definition col (m : list (list T)) (j : nat) : list T := map (fun r => nth j r n0) m.
  (** [m.T] for a matrix with c columns *)
  Definition mtrans (c : nat) (m : list (list T)) : list (list T) := map (col m) (seq 0 c).
  (** [np.eye(n)] *)
  Definition eye (n : nat) : list (list T) :=
    mtab n n (fun i j => if (i =? j)%nat then n1 else n0).
  (** [np.diag(v)] of a vector; [np.diag(m)] of a matrix is [mdiag] *)
  Definition diagm (v : list T) : list (list T) :=
    mtab (length v) (length v) (fun i j => if (i =? j)%nat then nth i v n0 else n0).
  Definition mdiag (m : list (list T)) : list T :=
    map (fun i => mget m i i) (seq 0 (length m)).
  (** [np.dot(m, v)] *)
  Definition mvec (m : list (list T)) (v : list T) : list T := map (fun r => vdot r v) m.
  (** [np.dot(w, m)] for a matrix with c columns *)
  Definition vmat (c : nat) (w : list T) (m : list (list T)) : list T :=
    map (fun j => vdot w (col m j)) (seq 0 c).
  (** [np.dot(a, b)], b with c columns *)
  Definition mmul (c : nat) (a b : list (list T)) : list (list T) := map (fun r => vmat c r b) a.
  Definition madd (a b : list (list T)) : list (list T) := map2 vadd a b.
  (** [m * k] *)
  Definition mscale (k : T) (m : list (list T)) : list (list T) :=
    map (map (fun x => x * k)) m.
  (** [k * m] *)
  Definition mscale_l (k : T) (m : list (list T)) : list (list T) := map (vscale k) m.
  (** [np.outer(u, v)] *)
  Definition outer (u v : list T) : list (list T) := map (fun x => vscale x v) u.
  (** [m.mean()] *)
  Definition vmean (v : list T) : T := vsum v / nN (length v).
  (** [np.triu(m) + np.triu(m, 1).T] *)
  Definition symm (n : nat) (m : list (list T)) : list (list T) :=
    mtab n n (fun i j => if (i <=? j)%nat then mget m i j + n0 else n0 + mget m j i).
  (** [np.sign] *)
  Definition nsign (x : T) : T :=
    if x <? n0 then nZ (-1) else if n0 <? x then n1 else if x =? n0 then n0 else x.
End Mat.
