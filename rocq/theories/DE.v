(** Differential Evolution: stochopy/optimize/de. *)
From Verif Require Import Base Num Env Common.

Section DE.
  Context {N : Num} {E : Env N}.
  Local Open Scope num_scope.

  (** ** de/_strategy.py *)
  Inductive Strat := Rand1bin | Rand2bin | Best1bin | Best2bin.

  (** de/_strategy.py:41-46 *)
  Definition strategy_map (s : string) : option Strat :=
    if String.eqb s "rand1bin" then Some Rand1bin
    else if String.eqb s "rand2bin" then Some Rand2bin
    else if String.eqb s "best1bin" then Some Best1bin
    else if String.eqb s "best2bin" then Some Best2bin
    else None.

  (** [X[i[k]]]; [None]: IndexError *)
  Definition pick (is : list nat) (X : matrix) (k : nat) : option vec :=
    match nth_error is k with Some j => Some (nth j X []) | None => None end.

  (** de/_strategy.py:1-38, one row (in deferred mode numpy does all rows at once). *)
  Definition mutate (st : Strat) (is : list nat) (F : T) (X : matrix) (gbest : vec)
    : option vec :=
    match st with
    | Rand1bin =>
        match pick is X 0, pick is X 1, pick is X 2 with
        | Some a, Some b, Some c => Some (vadd a (vscale F (vsub b c)))
        | _, _, _ => None
        end
    | Rand2bin =>
        match pick is X 0, pick is X 1, pick is X 2, pick is X 3, pick is X 4 with
        | Some a, Some b, Some c, Some d, Some e =>
            Some (vadd a (vscale F (vsub (vsub (vadd b c) d) e)))
        | _, _, _, _, _ => None
        end
    | Best1bin =>
        match pick is X 0, pick is X 1 with
        | Some a, Some b => Some (vadd gbest (vscale F (vsub a b)))
        | _, _ => None
        end
    | Best2bin =>
        match pick is X 0, pick is X 1, pick is X 2, pick is X 3 with
        | Some a, Some b, Some c, Some d =>
            Some (vadd gbest (vscale F (vsub (vsub (vadd a b) c) d)))
        | _, _, _, _ => None
        end
    end.

  (** ** de/_constraints.py *)
  Inductive DECons := DENone | DERandom.
  (** de/_constraints.py:31-34 *)
  Definition de_cons_map (c : option string) : option DECons :=
    match c with
    | None => Some DENone
    | Some s => if String.eqb s "Random" then Some DERandom else None
    end.

  (** de/_constraints.py:4-28 on one row.  On a matrix numpy draws row after row: [mapM]. *)
  Definition de_cons (c : DECons) (lower upper : vec) (u : vec) : M vec :=
    match c with
    | DENone => ret u
    | DERandom =>
        r <- uniform_vec lower upper ;;
        ret (map3 (fun x b r => if (x <? fst b) || (snd b <? x) then r else x)
                  u (combine lower upper) r)
    end.

  (** ** de/_de.py *)

  Record DEParams := mkDEParams {
    de_F : T; de_CR : T; de_strat : Strat; de_con : DECons;
    de_p : nat; de_d : nat; de_lower : vec; de_upper : vec;
    de_maxiter : Z; de_xtol : T; de_ftol : T; de_mode : Mode;
    de_nout : option Z;
    de_alias : bool;      (* X is the caller's array *)
    de_list : bool        (* X is a Python list *) }.

  (** The array U (de/_de.py:209) is a scratch buffer, completely overwritten before each use:
      it is not part of the state. *)
  Record DES := mkDES {
    des_X : matrix; des_gbest : vec; des_pbestfit : vec; des_gfit : T; des_pfit : vec;
    des_rec : option Rec }.

  (** de/_de.py:309-311 *)
  Definition delete_shuffle (p i : nat) : M (list nat) :=
    pi <- perm (p - 1) ;;
    ret (map (fun k => nth k (del i (seq 0 p)) 0%nat) pi).

  (** [np.random.randint(n)]: ValueError for n = 0 *)
  Definition np_randint (n : nat) : M nat :=
    match n with O => raise ValueError | _ => randint n end.

  (** de/_de.py:339-344, 380-383: binomial crossover of one row *)
  Definition crossover (CR : T) (irand : nat) (r1 V x : vec) : vec :=
    map3 (fun jr v x => if (fst jr =? irand)%nat || (snd jr <=? CR) then v else x)
         (combine (seq 0 (length r1)) r1) V x.

  Definition set_alias (P : DEParams) (X : matrix) : M unit := when (de_alias P) (set_arg X).

  (** de/_de.py:335-344: the trial vectors U of a synchronous generation *)
  Definition de_cands (P : DEParams) (r1 : matrix) (X : matrix) (gbest : vec) : M matrix :=
    iss <- mapM (delete_shuffle (de_p P)) (seq 0 (de_p P)) ;;
    V <- mapM (fun is => orelse (mutate (de_strat P) is (de_F P) X gbest) IndexError) iss ;;
    irand <- replicateM (de_p P) (np_randint (de_d P)) ;;
    mapM (de_cons (de_con P) (de_lower P) (de_upper P))
         (map3 (fun ir r1v x => crossover (de_CR P) ir (fst r1v) (snd r1v) x)
               irand (combine r1 V) X).

  (** de/_de.py:314-351 *)
  Definition de_sync (P : DEParams) (it : Z) (r1 : matrix) (s : DES) : M (DES * option Z) :=
    U <- de_cands P r1 (des_X s) (des_gbest s) ;;
    sel <- selection_sync it U (des_gbest s) (des_X s) (des_pbestfit s) (de_maxiter P)
                          (de_xtol P) (de_ftol P) (eval_pop (de_mode P)) ;;
    set_alias P (ss_x sel) ;;;
    ret (mkDES (ss_x sel) (ss_best sel) (ss_xfun sel) (ss_bestfun sel) (ss_candfun sel)
               (des_rec s),
         ss_status sel).

  (** de/_de.py:376-383: the trial vector U[i] of individual i *)
  Definition de_cand1 (P : DEParams) (r1 : vec) (i : nat) (X : matrix) (gbest : vec) : M vec :=
    is <- delete_shuffle (de_p P) i ;;
    V <- orelse (mutate (de_strat P) is (de_F P) X gbest) IndexError ;;
    ir <- np_randint (de_d P) ;;
    de_cons (de_con P) (de_lower P) (de_upper P) (crossover (de_CR P) ir r1 V (nth i X [])).

  (** de/_de.py:375-388, one individual *)
  Definition de_async_one (P : DEParams) (r1 : matrix) (acc : DES * option Z) (i : nat)
    : M (DES * option Z) :=
    let s := fst acc in
    u <- de_cand1 P (nth i r1 []) i (des_X s) (des_gbest s) ;;
    sel <- selection_async u (des_gbest s) (des_gfit s) (des_X s) (des_pbestfit s)
                           (de_xtol P) (de_ftol P) i ;;
    set_alias P (sa_x sel) ;;;
    ret (mkDES (sa_x sel) (sa_best sel) (sa_xfun sel) (sa_bestfun sel)
               (upd i (sa_candfun sel) (des_pfit s)) (des_rec s),
         sa_status sel).

  (** de/_de.py:354-394 *)
  Definition de_async (P : DEParams) (it : Z) (r1 : matrix) (s : DES) : M (DES * option Z) :=
    '(s', st) <- foldM (de_async_one P r1) (s, None) (seq 0 (de_p P)) ;;
    ret (s', match st with
             | None => if (de_maxiter P <=? it)%Z then Some (-1)%Z else None
             | Some c => Some c
             end).

  (** the best recorded row: de/_de.py:276-278 *)
  Definition best_row (X : matrix) (pfit : vec) : vec * T :=
    let idx := argmin pfit in (nth idx X [], nth idx pfit n0).

  (** de/_de.py:250-278: body of the loop up to the recording; a list X has no attribute shape *)
  Definition de_step (P : DEParams) (sync : bool) (it : Z) (s : DES) : M (DES * option Z) :=
    r1 <- rand_mat (de_p P) (de_d P) ;;
    raise_if (de_list P) AttributeError ;;;
    '(s, st) <- (if sync then de_sync P it r1 s else de_async P it r1 s) ;;
    r <- rec_write (de_nout P) (de_maxiter P) it (des_X s) (des_pfit s)
                   (best_row (des_X s) (des_pfit s)) (des_rec s) ;;
    ret (mkDES (des_X s) (des_gbest s) (des_pbestfit s) (des_gfit s) (des_pfit s) r, st).

  Definition de_drv (P : DEParams) (sync : bool) : Drv DES := {|
    d_step := de_step P sync;
    d_post := fun _ s => ret s;
    d_pop := des_X; d_x := des_gbest; d_fun := des_gfit;
    d_nfev := fun it _ => (it * Z.of_nat (de_p P))%Z;
    d_rec := des_rec |}.

  (** de/_de.py:176-301 with the decorator of optimize/_common.py:27-106. *)
  Definition de (a : Args) (sync : bool) (F CR : T) (st : Strat) : M OptRes :=
    mode <- eval_kindM sync (a_workers a) (a_backend a) ;;
    let d := nd_len (a_bounds a) in
    '(lower, upper) <- unpack_bounds (a_bounds a) ;;
    con <- orelse (de_cons_map (a_constraints a)) KeyError ;;
    let p := Z.to_nat (a_popsize a) in
    let x0 := a_x0 a in
    let is_list := match x0 with Some _ => negb (a_x0_array a) | None => false end in
    let alias := match x0 with Some _ => a_x0_array a | None => false end in
    X <- match x0 with Some x => ret (nd_rows x) | None => lhs p d lower upper end ;;
    (* the asynchronous wrapper reads x.ndim *)
    raise_if (is_list && negb sync) AttributeError ;;;
    '(X, pfit) <- eval_pop mode X ;;
    when alias (set_arg X) ;;;
    gb <- np_argmin pfit ;;
    let gfit := nth gb pfit n0 in
    let gbest := nth gb X [] in
    nout <- rec_alloc (a_return_all a) (a_verbosity a) (a_popsize a) (a_maxiter a) ;;
    r <- rec_write nout (a_maxiter a) 1 X pfit (gbest, gfit)
           (match nout with Some _ => Some ([], []) | None => None end) ;;
    let P := mkDEParams F CR st con p d lower upper (a_maxiter a) (a_xtol a) (a_ftol a) mode
                        nout alias is_list in
    let s := mkDES X gbest pfit gfit pfit r in
    let D := de_drv P sync in
    when (has_cb a) (call_cb (d_pop D s) (cb_state D 1 s)) ;;;
    drive D (has_cb a) (fuel (a_maxiter a)) 1 s.

  (** de/_de.py:13-173 *)
  Record DEArgs := mkDEArgs {
    dea : Args; dea_mutation : T; dea_recombination : T; dea_strategy : string;
    dea_updating : string }.

  Definition de_minimize (A : DEArgs) : M OptRes :=
    let a := dea A in
    check_pop a ;;;
    raise_if (outside (nZ 0) (dea_mutation A) (nZ 2)) ValueError ;;;
    raise_if (outside (nZ 0) (dea_recombination A) (nZ 1)) ValueError ;;;
    check_updating (dea_updating A) ;;;
    st <- orelse (strategy_map (dea_strategy A)) KeyError ;;
    seed_and_cb a ;;;
    de a (is_sync (dea_updating A) a) (dea_mutation A) (dea_recombination A) st.
End DE.
