(** The environment of a run (random generator, user code, numpy routines), the state, the
    trace, and the monad in which the model is written. *)
From Verif Require Import Base Num.

Section Types.
  Context {A : Arith}.
  Definition vec := list T.
  Definition matrix := list vec.

  (** An array_like argument, by its number of dimensions ([np.ndim]).  [D2 c rows] has [c]
      columns (meaningful when there is no row). *)
  Inductive nd := D0 (x : T) | D1 (v : vec) | D2 (c : nat) (m : matrix).

  (** The partial OptimizeResult handed to an optimizer's callback
      (optimize/de/_de.py:238-242,283-287 and the same places of the other optimizers);
      [cb_all] are the fields xall, funall. *)
  Record CbState := {
    cb_x : vec; cb_fun : T; cb_nfev : Z; cb_nit : Z;
    cb_all : option (list matrix * list vec) }.

  (** The partial SampleResult handed to a sampler's callback (sample/mcmc/_mcmc.py:113-117,
      147-156; sample/hmc/_hmc.py:135-139,178-187). *)
  Record SCbState := {
    scb_x : vec; scb_fun : T; scb_nit : Z; scb_accept : T;
    scb_all : option (matrix * vec) }.

  (** The trace: every call of user code, in order, with what it returned ([inr]/[Some]: the
      exception it raised). *)
  Inductive event :=
  | EEval (x : vec) (r : T + nat)
  | ECb (X : matrix) (st : CbState) (r : option nat)
  | ESCb (x : vec) (st : SCbState) (r : option nat)
  (* MPI collectives, with what this rank received (optimize/_common.py:63,68-70) *)
  | EBcast (X : matrix)
  | EReduce (f : vec).

  (** The number of collective evaluations so far. *)
  Fixpoint nbcast (l : list event) : nat :=
    match l with
    | [] => 0
    | EBcast _ :: t => S (nbcast t)
    | _ :: t => nbcast t
    end.
End Types.

Class Env (N : Num) := mkEnv {
  RNG : Type;                                   (* state of np.random *)
  US : Type;                                    (* state of the user's code *)
  e_seed : Z -> RNG;                            (* np.random.seed *)
  e_rand : RNG -> T * RNG;                      (* one double of np.random.rand *)
  e_randn : RNG -> T * RNG;                     (* one normal deviate *)
  e_perm : nat -> RNG -> list nat * RNG;        (* np.random.permutation(n) *)
  e_randint : nat -> RNG -> nat * RNG;          (* np.random.randint(n) *)
  e_fun : vec -> RNG * US -> (T + nat) * (RNG * US);   (* fun(x, *args) *)
  e_cb : matrix -> CbState -> RNG * US -> option nat * (RNG * US);
  e_scb : vec -> SCbState -> RNG * US -> option nat * (RNG * US);
  e_sched : nat -> RNG * US -> list nat;        (* order in which n parallel tasks run *)
  e_rank : nat;                                 (* MPI rank of this process *)
  e_mpisize : nat;                              (* MPI communicator size *)
  e_bcast : nat -> matrix -> matrix;            (* n-th Bcast: content of this rank's buffer *)
  e_allreduce : nat -> matrix -> vec -> vec;    (* n-th Allreduce(SUM), on the broadcast points
                                                   and this rank's contribution *)
  e_argsort : vec -> list nat;                  (* np.argsort *)
  e_percentile : vec -> T -> T;                 (* np.percentile *)
  e_median : vec -> T;                          (* np.median *)
  e_eigh : matrix -> option (vec * matrix);     (* np.linalg.eigh; None: LinAlgError *)
  e_empty : nat -> vec                          (* content of np.empty(n) *)
}.

Section Monad.
  Context {N : Num} {E : Env N}.

  (** [rs]: generator and user state; [tr]: trace; [argbuf]: current content of the array
      argument (x0 or stepsize) that the caller passed by reference. *)
  Record St := mkSt { rs : RNG * US; tr : list event; argbuf : option matrix }.

  Definition M (A : Type) := St -> (A + Exn) * St.
  Definition ret {A} (a : A) : M A := fun s => (inl a, s).
  Definition raise {A} (e : Exn) : M A := fun s => (inr e, s).
  Definition bind {A B} (m : M A) (k : A -> M B) : M B :=
    fun s => match m s with
             | (inl a, s') => k a s'
             | (inr e, s') => (inr e, s')
             end.
End Monad.

Declare Scope m_scope.
Delimit Scope m_scope with m.
Notation "x <- m ;; k" := (bind m (fun x => k))
  (at level 61, m at next level, right associativity) : m_scope.
Notation "' pat <- m ;; k" := (bind m (fun x => match x with pat => k end))
  (at level 61, pat pattern, m at next level, right associativity) : m_scope.
Notation "m ;;; k" := (bind m (fun _ => k)) (at level 61, right associativity) : m_scope.
Open Scope m_scope.

Section Prims.
  Context {N : Num} {E : Env N}.

  (** A draw from the generator. *)
  Definition draw {A} (f : RNG -> A * RNG) : M A :=
    fun s => let '(a, r) := f (fst (rs s)) in
             (inl a, mkSt (r, snd (rs s)) (tr s) (argbuf s)).

  Definition rand : M T := draw e_rand.
  Definition randn : M T := draw e_randn.
  Definition perm (n : nat) : M (list nat) := draw (e_perm n).
  Definition randint (n : nat) : M nat := draw (e_randint n).

  (** [np.random.uniform(lo, hi)], one draw: numpy computes low + (high - low) * rand. *)
  Definition uniform (lo hi : T) : M T :=
    u <- rand ;; ret (nadd lo (nmul (nsub hi lo) u)).

  Fixpoint replicateM {A} (n : nat) (m : M A) : M (list A) :=
    match n with
    | O => ret []
    | S k => a <- m ;; l <- replicateM k m ;; ret (a :: l)
    end.

  Fixpoint mapM {A B} (f : A -> M B) (l : list A) : M (list B) :=
    match l with
    | [] => ret []
    | a :: t => b <- f a ;; bs <- mapM f t ;; ret (b :: bs)
    end.

  (** [for a in l: acc = f(acc, a)] *)
  Fixpoint foldM {A B} (f : A -> B -> M A) (acc : A) (l : list B) : M A :=
    match l with
    | [] => ret acc
    | b :: t => acc' <- f acc b ;; foldM f acc' t
    end.

  (** [np.random.rand(p, d)], [np.random.randn(p, d)] (row-major order of the draws). *)
  Definition rand_mat (p d : nat) : M matrix := replicateM p (replicateM d rand).
  Definition randn_vec (d : nat) : M vec := replicateM d randn.

  (** [np.random.uniform] raises OverflowError, before it draws, unless all ranges [high - low] are
      finite.  For uniform(-1.0, 1.0) [uniform] is used directly. *)
  Definition urange (lower upper : vec) : M unit :=
    if frange lower upper then ret tt else raise OverflowError.
  Definition uniform1 (lo hi : T) : M T := _ <- urange [lo] [hi] ;; uniform lo hi.
  Definition uniform_row (lower upper : vec) : M vec :=
    mapM (fun b => uniform (fst b) (snd b)) (combine lower upper).
  (** [np.random.uniform(lower, upper)], [np.random.uniform(lower, upper, (p, ndim))]. *)
  Definition uniform_vec (lower upper : vec) : M vec := _ <- urange lower upper ;; uniform_row lower upper.
  Definition uniform_mat (p : nat) (lower upper : vec) : M matrix :=
    _ <- urange lower upper ;; replicateM p (uniform_row lower upper).

  Definition seed (o : option Z) : M unit :=
    match o with
    | None => ret tt
    | Some z => fun s => (inl tt, mkSt (e_seed z, snd (rs s)) (tr s) (argbuf s))
    end.

  (** One call of the user's objective. *)
  Definition call_fun (x : vec) : M T :=
    fun s => let '(r, w) := e_fun x (rs s) in
             (match r with inl y => inl y | inr n => inr (UserError n) end,
              mkSt w (tr s ++ [EEval x r]) (argbuf s)).

  (** One call of the user's callback. *)
  Definition call_cb (X : matrix) (st : CbState) : M unit :=
    fun s => let '(r, w) := e_cb X st (rs s) in
             (match r with None => inl tt | Some n => inr (UserError n) end,
              mkSt w (tr s ++ [ECb X st r]) (argbuf s)).
  Definition call_scb (x : vec) (st : SCbState) : M unit :=
    fun s => let '(r, w) := e_scb x st (rs s) in
             (match r with None => inl tt | Some n => inr (UserError n) end,
              mkSt w (tr s ++ [ESCb x st r]) (argbuf s)).

  (** MPI collectives: [Bcast] overwrites the buffer [X] of this rank; [Allreduce]. *)
  Definition mpi_bcast (X : matrix) : M matrix :=
    fun s => let X' := e_bcast (nbcast (tr s)) X in
             (inl X', mkSt (rs s) (tr s ++ [EBcast X']) (argbuf s)).
  Definition mpi_allreduce (X : matrix) (f : vec) : M vec :=
    fun s => let f' := e_allreduce (nbcast (tr s) - 1) X f in
             (inl f', mkSt (rs s) (tr s ++ [EReduce f']) (argbuf s)).

  (** In-place modification of the caller's array. *)
  Definition set_arg (m : matrix) : M unit :=
    fun s => (inl tt, mkSt (rs s) (tr s) (Some m)).

  Definition when (b : bool) (m : M unit) : M unit := if b then m else ret tt.

  (** [option] to exception. *)
  Definition orelse {A} (o : option A) (e : Exn) : M A :=
    match o with Some a => ret a | None => raise e end.
End Prims.

(** A whole run: start in world [w] with empty trace and caller's array [a0]. *)
Definition exec {N : Num} {E : Env N} {A} (m : M A) (w : RNG * US) (a0 : option matrix)
  : (A + Exn) * St := m (mkSt w [] a0).
