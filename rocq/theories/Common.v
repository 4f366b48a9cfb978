(** stochopy/optimize/_common.py and the loop that all optimizers share. *)
From Verif Require Import Base Num Env.

Section Common.
  Context {N : Num} {E : Env N}.
  Local Open Scope num_scope.

  (** ** numpy reductions *)

  (** [np.argmin] of a nonempty vector: first minimum, or first NaN. *)
  Fixpoint argmin_from (mp : T) (ip i : nat) (l : vec) : nat :=
    match l with
    | [] => ip
    | v :: t => if mp <=? v then argmin_from mp ip (S i) t
                else if nisnan v then i else argmin_from v i (S i) t
    end.
  Definition argmin (v : vec) : nat :=
    match v with
    | [] => 0
    | a :: t => if nisnan a then 0 else argmin_from a 0 1 t
    end.
  (** np.argmin raises ValueError on an empty array *)
  Definition np_argmin (v : vec) : M nat :=
    match v with [] => raise ValueError | _ => ret (argmin v) end.

  (** [np.max] / [np.min] of a nonempty vector (NaN propagates). *)
  Definition np_max2 (a b : T) : T := if nisnan a then a else if b <=? a then a else b.
  Definition np_min2 (a b : T) : T := if nisnan a then a else if a <=? b then a else b.
  Definition vmax (v : vec) : T := match v with [] => n0 | a :: t => fold_left np_max2 t a end.
  Definition vmin (v : vec) : T := match v with [] => n0 | a :: t => fold_left np_min2 t a end.

  (** ** Evaluation of a population: the decorator (optimize/_common.py:27-106) *)

  Inductive Mode := Serial | Joblib | Mpi.

  Definition in_prefer (b : string) : bool := String.eqb b "loky" || String.eqb b "threading".

  (** optimize/_common.py:34-90: which wrapper is built.  [parallel] is the truth value of the
      variable of that name.  The asynchronous wrapper (84-88) is [Serial] too: it evaluates a
      2-D array row by row and a 1-D array with one call. *)
  Definition wrapper_kind (sync : bool) (backend : string) (parallel : bool) : Mode + Exn :=
    if sync then
      if parallel then
        if in_prefer backend then inl Joblib
        else if String.eqb backend "mpi" then inl Mpi
        else inr ValueError
      else inl Serial
    else inl Serial.

  (** optimize/_common.py:92-102. *)
  Definition eval_kind (sync : bool) (workers : Z) (backend : option string) : Mode + Exn :=
    let backend := match backend with
                   | None => "threading"%string
                   | Some b => if String.eqb b "" then "threading"%string else b
                   end in
    if in_prefer backend && negb (Z.eqb workers 0 || Z.eqb workers 1)
    then wrapper_kind sync backend true
    else wrapper_kind sync backend (String.eqb backend "mpi").

  Definition eval_kindM sync workers backend : M Mode :=
    match eval_kind sync workers backend with inl m => ret m | inr e => raise e end.

  (** optimize/_common.py:77-80: serial evaluation. *)
  Definition eval_serial (X : matrix) : M vec := mapM call_fun X.

  (** optimize/_common.py:38-43: joblib.  The tasks run in the order chosen by the scheduler,
      the results are collected in order. *)
  Definition get_sched (n : nat) : M (list nat) := fun s => (inl (e_sched n (rs s)), s).
  Definition eval_joblib (X : matrix) : M vec :=
    order <- get_sched (length X) ;;
    foldM (fun f i => y <- call_fun (nth i X []) ;; ret (upd i y f))
          (repeat n0 (length X)) order.

  (** [np.arange(start, stop, step)] for step >= 1. *)
  Definition arange (start stop step : nat) : list nat :=
    filter (fun i => (start <=? i)%nat && ((i - start) mod step =? 0)%nat) (seq 0 stop).

  (** optimize/_common.py:58-72: MPI.  [Bcast] overwrites [X] in place: the new content is
      returned with the values. *)
  Definition eval_mpi (X : matrix) : M (matrix * vec) :=
    X' <- mpi_bcast X ;;
    fmpi <- foldM (fun f i => y <- call_fun (nth i X' []) ;; ret (upd i y f))
                  (repeat n0 (length X')) (arange e_rank (length X') e_mpisize) ;;
    f <- mpi_allreduce X' fmpi ;;
    ret (X', f).

  (** The wrapped objective applied to a 2-D array; the array after the call (in-place Bcast)
      and the values. *)
  Definition eval_pop (m : Mode) (X : matrix) : M (matrix * vec) :=
    match m with
    | Serial => f <- eval_serial X ;; ret (X, f)
    | Joblib => f <- eval_joblib X ;; ret (X, f)
    | Mpi => eval_mpi X
    end.

  (** ** Latin Hypercube (optimize/_common.py:109-120) *)

  (** [np.linspace(-1.0, 1.0, p, endpoint=False)[k]] *)
  Definition lin (p k : nat) : T := nN k * (nZ 2 / nN p) + nZ (-1).

  Definition lhs_scale (lower upper row : vec) : vec :=
    map3 (fun x l u => x * (nlit 5 (-1) * (u - l)) + nlit 5 (-1) * (u + l)) row lower upper.

  (** For ndim = 0 numpy's transpose gives an array of shape (0,), not (popsize, 0): not
      modelled (theorems about lhs ask for ndim >= 1). *)
  Definition lhs (p d : nat) (lower upper : vec) : M matrix :=
    x <- rand_mat p d ;;
    let x := map2 (fun row k => map (fun v => v / nN p + lin p k) row) x (seq 0 p) in
    perms <- replicateM d (perm p) ;;
    let pop := map (fun k => map2 (fun pi j => nth j (nth (nth k pi 0%nat) x []) n0)
                                  perms (seq 0 d)) (seq 0 p) in
    ret (map (lhs_scale lower upper) pop).

  (** ** Selection *)

  (** optimize/_common.py:126-129 *)
  Definition sel_fun (candfun xfun : vec) : vec :=
    map2 (fun c f => if c <? f then c else f) candfun xfun.
  Definition sel_x (cand : matrix) (candfun : vec) (x : matrix) (xfun : vec) : matrix :=
    map2 (fun c f => if snd c <? snd f then fst c else fst f)
         (combine cand candfun) (combine x xfun).

  Record SelSync := mkSelSync {
    ss_cand : matrix; ss_x : matrix; ss_xfun : vec;
    ss_best : vec; ss_bestfun : T; ss_candfun : vec; ss_status : option Z }.

  (** optimize/_common.py:134-158 *)
  Definition sync_status (it maxiter : Z) (xtol ftol : T) (xbest xi : vec) (fi : T) : option Z :=
    let cond1 := vnorm (vsub xbest xi) <=? xtol in
    let cond2 := fi <=? ftol in
    if cond1 && cond2 then Some 0%Z
    else if fi <=? ftol then Some 1%Z
    else if (maxiter <=? it)%Z then Some (-1)%Z
    else None.

  (** optimize/_common.py:127-158: what follows the evaluation *)
  Definition sync_sel (it : Z) (cand : matrix) (candfun : vec) (xbest : vec) (x : matrix)
      (xfun : vec) (maxiter : Z) (xtol ftol : T) : SelSync :=
    let x' := sel_x cand candfun x xfun in
    let xfun' := sel_fun candfun xfun in
    let idx := argmin xfun' in
    let xi := nth idx x' [] in
    let fi := nth idx xfun' n0 in
    mkSelSync cand x' xfun' xi fi candfun (sync_status it maxiter xtol ftol xbest xi fi).

  (** optimize/_common.py:123-160.  [ev] is the wrapped objective. *)
  Definition selection_sync (it : Z) (cand : matrix) (xbest : vec) (x : matrix) (xfun : vec)
      (maxiter : Z) (xtol ftol : T) (ev : matrix -> M (matrix * vec)) : M SelSync :=
    '(cand, candfun) <- ev cand ;;
    np_argmin (sel_fun candfun xfun) ;;;
    ret (sync_sel it cand candfun xbest x xfun maxiter xtol ftol).

  Record SelAsync := mkSelAsync {
    sa_x : matrix; sa_xfun : vec; sa_best : vec; sa_bestfun : T; sa_candfun : T;
    sa_status : option Z }.

  (** optimize/_common.py:168-192: what follows the evaluation; [c] is [cand[i]] *)
  Definition async_sel (c : vec) (candfun : T) (xbest : vec) (xbestfun : T) (x : matrix)
      (xfun : vec) (xtol ftol : T) (i : nat) : SelAsync :=
    if candfun <=? nth i xfun n0 then
      let x' := upd i c x in
      let xfun' := upd i candfun xfun in
      if candfun <=? xbestfun then
        let cond1 := vnorm (vsub xbest c) <=? xtol in
        let cond2 := candfun <=? ftol in
        mkSelAsync x' xfun' c candfun candfun
          (if cond1 && cond2 then Some 0%Z
           else if candfun <=? ftol then Some 1%Z
           else None)
      else mkSelAsync x' xfun' xbest xbestfun candfun None
    else mkSelAsync x xfun xbest xbestfun candfun None.

  (** optimize/_common.py:163-194 *)
  Definition selection_async (c : vec) (xbest : vec) (xbestfun : T) (x : matrix) (xfun : vec)
      (xtol ftol : T) (i : nat) : M SelAsync :=
    candfun <- call_fun c ;;
    ret (async_sel c candfun xbest xbestfun x xfun xtol ftol i).

  (** ** Messages (optimize/_common.py:13-24) *)
  Definition messages : list (Z * string) :=
    [ (-8, "TolX"); (-7, "TolFun"); (-6, "TolXUp"); (-5, "EqualFunValues");
      (-4, "ConditionCov"); (-3, "NoEffectCoord"); (-2, "NoEffectAxis");
      (-1, "maximum number of iterations is reached");
      (0, "best solution changes less than xtol");
      (1, "best solution value is lower than ftol") ]%Z%string.
  Definition message (st : Z) : option string :=
    option_map snd (find (fun p => Z.eqb (fst p) st) messages).

  (** ** return_all *)

  (** The rows recorded so far: xall[:it], funall[:it]. *)
  Definition Rec := (list matrix * list vec)%type.

  (** [int(np.ceil(verbosity * popsize))] (de/_de.py:222 and same line elsewhere); raises for
      NaN and infinities *)
  Definition rec_nout (verbosity : T) (popsize : Z) : M Z :=
    let x := verbosity * nZ popsize in orelse (nceilZ x) (int_exn x).

  (** Assignment of [rows] to a slot of [n] rows: same number of rows, or one row broadcast. *)
  Definition fit_rows {A} (n : nat) (rows : list A) : option (list A) :=
    if (length rows =? n)%nat then Some rows
    else match rows with [r] => Some (repeat r n) | _ => None end.

  (** Writing slot [it - 1] (de/_de.py:227-228,233-234,272-273,277-278 and the same places of the
      other optimizers): [pop], [pfit] for nout > 0, [best] for nout <= 0. *)
  Definition rec_put (maxiter it nout : Z) (pop : matrix) (pfit : vec) (best : vec * T)
      (r : Rec) : M Rec :=
    if (maxiter <? it)%Z then raise IndexError
    else if (0 <? nout)%Z then
      rows <- orelse (fit_rows (Z.to_nat nout) (firstn (Z.to_nat nout) pop)) ValueError ;;
      fs <- orelse (fit_rows (Z.to_nat nout) (firstn (Z.to_nat nout) pfit)) ValueError ;;
      ret (fst r ++ [rows], snd r ++ [fs])
    else ret (fst r ++ [[fst best]], snd r ++ [[snd best]]).

  (** Allocation of xall, funall: np.empty with a negative dimension is a ValueError. *)
  Definition rec_alloc (retall : bool) (verbosity : T) (popsize maxiter : Z) : M (option Z) :=
    if retall then
      nout <- rec_nout verbosity popsize ;;
      (if (maxiter <? 0)%Z then raise ValueError else ret (Some nout))
    else ret None.

  Definition rec_write (nout : option Z) (maxiter it : Z) (pop : matrix) (pfit : vec)
      (best : vec * T) (r : option Rec) : M (option Rec) :=
    match nout, r with
    | Some n, Some r => r' <- rec_put maxiter it n pop pfit best r ;; ret (Some r')
    | _, _ => ret None
    end.

  (** ** Results *)
  Record OptRes := mkOptRes {
    r_x : vec; r_success : bool; r_status : Z; r_message : string; r_fun : T;
    r_nfev : Z; r_nit : Z; r_all : option Rec }.

  (** ** The main loop of every optimizer
      (de/_de.py:245-301, cpso/_cpso.py:257-321, na/_na.py:211-262, cmaes/_cmaes.py:226-357,
      vdcma/_vdcma.py:233-423): the part common to all five. *)
  Record Drv (S : Type) := mkDrv {
    d_step : Z -> S -> M (S * option Z);     (* one generation, recording, status *)
    d_post : Z -> S -> M S;                  (* after the callback if not converged *)
    d_pop : S -> matrix;                     (* what the callback receives as X *)
    d_x : S -> vec; d_fun : S -> T; d_nfev : Z -> S -> Z;
    d_rec : S -> option Rec }.
  Arguments d_step {S}. Arguments d_post {S}. Arguments d_pop {S}. Arguments d_x {S}.
  Arguments d_fun {S}. Arguments d_nfev {S}. Arguments d_rec {S}.

  Definition cb_state {S} (d : Drv S) (it : Z) (s : S) : CbState :=
    {| cb_x := d_x d s; cb_fun := d_fun d s; cb_nfev := d_nfev d it s; cb_nit := it;
       cb_all := d_rec d s |}.

  Definition result {S} (d : Drv S) (it : Z) (s : S) (st : Z) : M OptRes :=
    msg <- orelse (message st) KeyError ;;
    ret {| r_x := d_x d s; r_success := (0 <=? st)%Z; r_status := st; r_message := msg;
           r_fun := d_fun d s; r_nfev := d_nfev d it s; r_nit := it; r_all := d_rec d s |}.

  Fixpoint drive {S} (d : Drv S) (cb : bool) (fuel : nat) (it : Z) (s : S) : M OptRes :=
    match fuel with
    | O => raise OutOfFuel
    | Datatypes.S k =>
        let it := (it + 1)%Z in
        '(s, st) <- d_step d it s ;;
        when cb (call_cb (d_pop d s) (cb_state d it s)) ;;;
        match st with
        | Some c => result d it s c
        | None => s <- d_post d it s ;; drive d cb k it s
        end
    end.

  (** Enough fuel for [maxiter] iterations (at least two). *)
  Definition fuel (maxiter : Z) : nat := (Z.to_nat maxiter + 2)%nat.

  (** ** Arguments *)

  Inductive CbArg := CbNone | CbBad (* not callable *) | CbFun.

  (** The arguments shared by all optimizers. *)
  Record Args := mkArgs {
    a_callable : bool;               (* hasattr(fun, "__call__") *)
    a_bounds : nd;
    a_x0 : option nd;
    a_x0_array : bool;               (* x0 is an ndarray (not a list of lists) *)
    a_maxiter : Z;
    a_popsize : Z;
    a_seed : option Z;
    a_xtol : T;
    a_ftol : T;
    a_constraints : option string;
    a_workers : Z;
    a_backend : option string;
    a_return_all : bool;
    a_verbosity : T;
    a_callback : CbArg }.

  Definition raise_if (b : bool) (e : Exn) : M unit := if b then raise e else ret tt.

  Definition ndim_is (k : nat) (x : nd) : bool :=
    match x, k with D0 _, 0 | D1 _, 1 | D2 _ _, 2 => true | _, _ => false end.
  (** [len(x)] *)
  Definition nd_len (x : nd) : nat :=
    match x with D0 _ => 0 | D1 v => length v | D2 _ m => length m end.
  (** [np.shape(x)[1]] *)
  Definition nd_cols (x : nd) : nat := match x with D2 c _ => c | _ => 0 end.
  Definition nd_rows (x : nd) : matrix := match x with D2 _ m => m | _ => [] end.
  Definition nd_vec (x : nd) : vec := match x with D1 v => v | _ => [] end.

  (** [not lo <= x <= hi] *)
  Definition outside (lo x hi : T) : bool := negb ((lo <=? x) && (x <=? hi)).
  (** [not lo < x <= hi] *)
  Definition outside_open (lo x hi : T) : bool := negb ((lo <? x) && (x <=? hi)).

  (** de/_de.py:109-126, cpso/_cpso.py:106-124, na/_na.py:85-102 *)
  Definition check_pop (a : Args) : M unit :=
    raise_if (negb (a_callable a)) TypeError ;;;
    raise_if (negb (ndim_is 2 (a_bounds a))) ValueError ;;;
    raise_if match a_x0 a with
             | None => false
             | Some x => negb (ndim_is 2 x) || negb (nd_cols x =? nd_len (a_bounds a))%nat
             end ValueError ;;;
    raise_if (a_popsize a <? 2)%Z ValueError ;;;
    raise_if match a_x0 a with
             | None => false
             | Some x => negb (Z.of_nat (nd_len x) =? a_popsize a)%Z
             end ValueError.

  (** de/_de.py:148-153 and the same lines of the others *)
  Definition seed_and_cb (a : Args) : M unit :=
    seed (a_seed a) ;;;
    raise_if (match a_callback a with CbBad => true | _ => false end) ValueError.

  Definition has_cb (a : Args) : bool := match a_callback a with CbFun => true | _ => false end.

  (** de/_de.py:143-145, cpso/_cpso.py:148-150 *)
  Definition is_sync (updating : string) (a : Args) : bool :=
    String.eqb updating "deferred"
    || negb (Z.eqb (a_workers a) 0 || Z.eqb (a_workers a) 1)
    || match a_backend a with Some b => String.eqb b "mpi" | None => false end.

  Definition check_updating (updating : string) : M unit :=
    raise_if (negb (String.eqb updating "immediate" || String.eqb updating "deferred")) ValueError.

  (** [lower, upper = np.transpose(bounds)]: ValueError unless there are two columns. *)
  Definition unpack_bounds (b : nd) : M (vec * vec) :=
    match b with
    | D2 2 rows => ret (map (fun r => nth 0 r n0) rows, map (fun r => nth 1 r n0) rows)
    | _ => raise ValueError
    end.
End Common.

Arguments d_step {N E S}. Arguments d_post {N E S}. Arguments d_pop {N E S}.
Arguments d_x {N E S}. Arguments d_fun {N E S}. Arguments d_nfev {N E S}.
Arguments d_rec {N E S}. Arguments mkDrv {N E S}.
