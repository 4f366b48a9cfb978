(** Competitive Particle Swarm: stochopy/optimize/cpso and stochopy/optimize/pso. *)
From Verif Require Import Base Num Env Common DE.

Section CPSO.
  Context {N : Num} {E : Env N}.
  Local Open Scope num_scope.

  (** ** cpso/_constraints.py *)
  Inductive PSOCons := PSONone | PSOShrink.
  (** cpso/_constraints.py:69-72 *)
  Definition pso_cons_map (c : option string) : option PSOCons :=
    match c with
    | None => Some PSONone
    | Some s => if String.eqb s "Shrink" then Some PSOShrink else None
    end.

  (** The candidate factors (b - X[mask]) / V[mask] on one side (cpso/_constraints.py:27-28). *)
  Definition shrink_side (out : T -> T -> bool) (X V b : vec) : vec :=
    concat (map3 (fun x v b => if out (x + v) b then [(b - x) / v] else []) X V b).

  (** cpso/_constraints.py:22-40; [maskl] is [X + V < lower], [masku] is [X + V > upper]. *)
  Definition shrink (lower upper X V : vec) : T :=
    let bl := shrink_side (fun c b => c <? b) X V lower in
    let bu := shrink_side (fun c b => b <? c) X V upper in
    match bl, bu with
    | _ :: _, _ :: _ => pymin (vmin bl) (vmin bu)
    | _ :: _, [] => vmin bl
    | [], _ :: _ => vmin bu
    | [], [] => n1
    end.

  (** cpso/_constraints.py:7-8, 44-64 on one row (the synchronous version does all rows). *)
  Definition pso_cons (c : PSOCons) (lower upper X V : vec) : vec * vec :=
    match c with
    | PSONone => (vadd X V, V)
    | PSOShrink =>
        let beta := shrink lower upper X V in
        let V := map (fun v => v * beta) V in
        (vadd X V, V)
    end.

  (** ** cpso/_cpso.py *)
  Record PSOParams := mkPSOParams {
    ps_w : T; ps_c1 : T; ps_c2 : T; ps_con : PSOCons;
    ps_gamma : option T;             (* None: [if gamma] is false *)
    ps_delta : T;
    ps_p : nat; ps_d : nat; ps_lower : vec; ps_upper : vec;
    ps_maxiter : Z; ps_xtol : T; ps_ftol : T; ps_mode : Mode;
    ps_nout : option Z; ps_alias : bool; ps_list : bool }.

  Record PSOS := mkPSOS {
    pss_X : matrix; pss_V : matrix; pss_pbest : matrix; pss_gbest : vec; pss_pbestfit : vec;
    pss_gfit : T; pss_pfit : vec; pss_rec : option Rec }.

  (** cpso/_cpso.py:326, one component: w * V + c1 * r1 * (pbest - X) + c2 * r2 * (gbest - X) *)
  Definition velocity1 (w c1 c2 : T) (v x r1 r2 pb gb : T) : T :=
    w * v + c1 * r1 * (pb - x) + c2 * r2 * (gb - x).
  Definition velocity (P : PSOParams) (X V pbest gbest r1 r2 : vec) : vec :=
    map2 (fun xv q => velocity1 (ps_w P) (ps_c1 P) (ps_c2 P) (snd xv) (fst xv)
                                (fst (fst q)) (snd (fst q)) (fst (snd q)) (snd (snd q)))
         (combine X V) (combine (combine r1 r2) (combine pbest gbest)).

  (** cpso/_cpso.py:324-329, one particle *)
  Definition pso_mutation (P : PSOParams) (X V pbest gbest r1 r2 : vec) : vec * vec :=
    pso_cons (ps_con P) (ps_lower P) (ps_upper P) X (velocity P X V pbest gbest r1 r2).

  (** cpso/_cpso.py:354 with 324-329: the new positions and velocities of the whole swarm *)
  Definition pso_moves (P : PSOParams) (r1 r2 : matrix) (s : PSOS) : list (vec * vec) :=
    map3 (fun xv pb r => pso_mutation P (fst xv) (snd xv) pb (pss_gbest s) (fst r) (snd r))
         (combine (pss_X s) (pss_V s)) (pss_pbest s) (combine r1 r2).

  (** cpso/_cpso.py:332-361.  A list X makes [pbest - X] a TypeError. *)
  Definition pso_sync (P : PSOParams) (it : Z) (r1 r2 : matrix) (s : PSOS)
    : M (PSOS * option Z) :=
    raise_if (ps_list P) TypeError ;;;
    let XV := pso_moves P r1 r2 s in
    sel <- selection_sync it (map fst XV) (pss_gbest s) (pss_pbest s) (pss_pbestfit s)
                          (ps_maxiter P) (ps_xtol P) (ps_ftol P) (eval_pop (ps_mode P)) ;;
    ret (mkPSOS (ss_cand sel) (map snd XV) (ss_x sel) (ss_best sel) (ss_xfun sel)
                (ss_bestfun sel) (ss_candfun sel) (pss_rec s),
         ss_status sel).

  Definition pso_set_alias (P : PSOParams) (X : matrix) : M unit := when (ps_alias P) (set_arg X).

  (** cpso/_cpso.py:387-396, one particle *)
  Definition pso_async_one (P : PSOParams) (r1 r2 : matrix) (acc : PSOS * option Z) (i : nat)
    : M (PSOS * option Z) :=
    let s := fst acc in
    let xv := pso_mutation P (nth i (pss_X s) []) (nth i (pss_V s) []) (nth i (pss_pbest s) [])
                           (pss_gbest s) (nth i r1 []) (nth i r2 []) in
    let X := upd i (fst xv) (pss_X s) in
    let V := upd i (snd xv) (pss_V s) in
    pso_set_alias P X ;;;
    sel <- selection_async (fst xv) (pss_gbest s) (pss_gfit s) (pss_pbest s) (pss_pbestfit s)
                           (ps_xtol P) (ps_ftol P) i ;;
    ret (mkPSOS X V (sa_x sel) (sa_best sel) (sa_xfun sel) (sa_bestfun sel)
                (upd i (sa_candfun sel) (pss_pfit s)) (pss_rec s),
         sa_status sel).

  (** cpso/_cpso.py:364-402 *)
  Definition pso_async (P : PSOParams) (it : Z) (r1 r2 : matrix) (s : PSOS)
    : M (PSOS * option Z) :=
    '(s', st) <- foldM (pso_async_one P r1 r2) (s, None) (seq 0 (ps_p P)) ;;
    ret (s', match st with
             | None => if (ps_maxiter P <=? it)%Z then Some (-1)%Z else None
             | Some c => Some c
             end).

  (** cpso/_cpso.py:410-411 *)
  Definition swarm_radius (d : nat) (X : matrix) (gbest : vec) : T :=
    vmax (map (fun x => vnorm (vsub x gbest)) X) / nsqrt (nZ 4 * nN d).

  (** cpso/_cpso.py:415-416; [None]: [int] of NaN *)
  Definition restart_count (p : nat) (it maxiter : Z) (gamma : T) : option Z :=
    let inorm := nZ it / nZ maxiter in
    ntrunc ((nN p - n1) /
            (n1 + nexp (n1 / nlit 9 (-2) * (inorm - gamma + nlit 5 (-1))))).

  (** [A[idx] = rows], idx without repetition *)
  Fixpoint upd_many {A} (idx : list nat) (rows : list A) (l : list A) : list A :=
    match idx, rows with
    | i :: idx, r :: rows => upd_many idx rows (upd i r l)
    | _, _ => l
    end.

  (** [a.argsort()[: -nw - 1 : -1]]: the last nw indices, from the last one down *)
  Definition worst (f : vec) (nw : nat) : list nat := firstn nw (rev (e_argsort f)).

  (** cpso/_cpso.py:405-426 *)
  Definition restart (P : PSOParams) (gamma : T) (it : Z) (s : PSOS) : M PSOS :=
    if swarm_radius (ps_d P) (pss_X s) (pss_gbest s) <? ps_delta P then
      raise_if (Z.eqb (ps_maxiter P) 0) ZeroDivisionError ;;;
      nw <- orelse (restart_count (ps_p P) it (ps_maxiter P) gamma) ValueError ;;
      if (0 <? nw)%Z then
        let n := Z.to_nat nw in
        let idx := worst (pss_pbestfit s) n in
        let V := upd_many idx (repeat (repeat n0 (ps_d P)) n) (pss_V s) in
        rows <- uniform_mat n (ps_lower P) (ps_upper P) ;;
        let X := upd_many idx rows (pss_X s) in
        pso_set_alias P X ;;;
        let pbest := upd_many idx (map (fun i => nth i X []) idx) (pss_pbest s) in
        let pbestfit := upd_many idx (repeat (nlit 1 30) n) (pss_pbestfit s) in
        ret (mkPSOS X V pbest (pss_gbest s) pbestfit (pss_gfit s) (pss_pfit s) (pss_rec s))
      else ret s
    else ret s.

  (** cpso/_cpso.py:304-307 *)
  Definition pso_post (P : PSOParams) (it : Z) (s : PSOS) : M PSOS :=
    match ps_gamma P with None => ret s | Some g => restart P g it s end.

  (** cpso/_cpso.py:260-293 *)
  Definition pso_step (P : PSOParams) (sync : bool) (it : Z) (s : PSOS) : M (PSOS * option Z) :=
    r1 <- rand_mat (ps_p P) (ps_d P) ;;
    r2 <- rand_mat (ps_p P) (ps_d P) ;;
    '(s, st) <- (if sync then pso_sync P it r1 r2 s else pso_async P it r1 r2 s) ;;
    r <- rec_write (ps_nout P) (ps_maxiter P) it (pss_X s) (pss_pfit s)
                   (best_row (pss_X s) (pss_pfit s)) (pss_rec s) ;;
    ret (mkPSOS (pss_X s) (pss_V s) (pss_pbest s) (pss_gbest s) (pss_pbestfit s) (pss_gfit s)
                (pss_pfit s) r, st).

  (** In immediate mode X stays the caller's array; in deferred mode X is a new array after the
      first move, and restarts modify that one. *)
  Definition pso_drv (P : PSOParams) (sync : bool) : Drv PSOS := {|
    d_step := pso_step P sync;
    d_post := pso_post P;
    d_pop := pss_X; d_x := pss_gbest; d_fun := pss_gfit;
    d_nfev := fun it _ => (it * Z.of_nat (ps_p P))%Z;
    d_rec := pss_rec |}.

  (** cpso/_cpso.py:216 *)
  Definition pso_delta (popsize maxiter : Z) : T :=
    nln (n1 + nlit 3 (-3) * nZ popsize)
    / np_max2 (nlit 2 (-1)) (nln (nlit 1 (-2) * nZ maxiter)).

  (** [if gamma]: the truth value of an optional float *)
  Definition truthy (g : option T) : option T :=
    match g with Some x => if x =? n0 then None else Some x | None => None end.

  (** cpso/_cpso.py:182-321 *)
  Definition cpso (a : Args) (sync : bool) (w c1 c2 : T) (gamma : option T) : M OptRes :=
    mode <- eval_kindM sync (a_workers a) (a_backend a) ;;
    let d := nd_len (a_bounds a) in
    '(lower, upper) <- unpack_bounds (a_bounds a) ;;
    con <- orelse (pso_cons_map (a_constraints a)) KeyError ;;
    let p := Z.to_nat (a_popsize a) in
    let x0 := a_x0 a in
    let is_list := match x0 with Some _ => negb (a_x0_array a) | None => false end in
    let x0_arr := match x0 with Some _ => a_x0_array a | None => false end in
    X <- match x0 with Some x => ret (nd_rows x) | None => lhs p d lower upper end ;;
    raise_if (is_list && negb sync) AttributeError ;;;
    let X0 := X in
    '(X, pfit) <- eval_pop mode X ;;
    when x0_arr (set_arg X) ;;;
    gb <- np_argmin pfit ;;
    let gfit := nth gb pfit n0 in
    let gbest := nth gb X [] in
    nout <- rec_alloc (a_return_all a) (a_verbosity a) (a_popsize a) (a_maxiter a) ;;
    r <- rec_write nout (a_maxiter a) 1 X pfit (gbest, gfit)
           (match nout with Some _ => Some ([], []) | None => None end) ;;
    let P := mkPSOParams w c1 c2 con (truthy gamma) (pso_delta (a_popsize a) (a_maxiter a))
                         p d lower upper (a_maxiter a) (a_xtol a) (a_ftol a) mode nout
                         (x0_arr && negb sync) is_list in
    (* pbest is copied before the evaluation (cpso/_cpso.py:221) *)
    let s := mkPSOS X (repeat (repeat n0 d) p) X0 gbest pfit gfit pfit r in
    let D := pso_drv P sync in
    when (has_cb a) (call_cb (d_pop D s) (cb_state D 1 s)) ;;;
    drive D (has_cb a) (fuel (a_maxiter a)) 1 s.

  Record CPSOArgs := mkCPSOArgs {
    pa : Args; pa_inertia : T; pa_cognitivity : T; pa_sociability : T;
    pa_competitivity : option T; pa_updating : string }.

  (** cpso/_cpso.py:12-179 *)
  Definition cpso_minimize (A : CPSOArgs) : M OptRes :=
    let a := pa A in
    check_pop a ;;;
    raise_if (outside (nZ 0) (pa_inertia A) (nZ 1)) ValueError ;;;
    raise_if (outside (nZ 0) (pa_cognitivity A) (nZ 4)) ValueError ;;;
    raise_if (outside (nZ 0) (pa_sociability A) (nZ 4)) ValueError ;;;
    raise_if (match pa_competitivity A with
              | None => false | Some g => outside (nZ 0) g (nZ 2) end) ValueError ;;;
    check_updating (pa_updating A) ;;;
    seed_and_cb a ;;;
    cpso a (is_sync (pa_updating A) a) (pa_inertia A) (pa_cognitivity A) (pa_sociability A)
         (pa_competitivity A).

  (** pso/_pso.py:99-122: the positional call of cpso's minimize with competitivity = None.
      PSO's own arguments are those of [CPSOArgs] without [pa_competitivity]. *)
  Record PSOArgs := mkPSOArgs {
    psa : Args; psa_inertia : T; psa_cognitivity : T; psa_sociability : T;
    psa_updating : string }.
  Definition pso_minimize (A : PSOArgs) : M OptRes :=
    cpso_minimize (mkCPSOArgs (psa A) (psa_inertia A) (psa_cognitivity A) (psa_sociability A)
                              None (psa_updating A)).
End CPSO.
