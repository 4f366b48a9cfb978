(** Neighborhood Algorithm: stochopy/optimize/na/_na.py. *)
From Verif Require Import Base Num Env Common DE.

Section NA.
  Context {N : Num} {E : Env N}.
  Local Open Scope num_scope.

  Record NAParams := mkNAParams {
    na_p : nat; na_d : nat; na_nr : nat; na_lower : vec; na_upper : vec;
    na_maxiter : Z; na_xtol : T; na_ftol : T; na_mode : Mode; na_nout : option Z }.

  (** na/_na.py:157-158: span_mask *)
  Definition span_mask (lower upper : vec) : list bool :=
    map2 (fun l u => n0 <? u - l) lower upper.

  (** na/_na.py:159-161, on one row (span is u - l, or 1 where it is not positive) *)
  Definition normalize (lower upper x : vec) : vec :=
    map3 (fun x l u => if n0 <? u - l then (x - l) / (if n0 <? u - l then u - l else n1) else u)
         x lower upper.
  Definition unnormalize (lower upper x : vec) : vec :=
    map3 (fun x l u => if n0 <? u - l then x * (if n0 <? u - l then u - l else n1) + l else u)
         x lower upper.

  (** na/_na.py:163: fun = lambda x: funnorm(unnormalize(x)); the array that MPI broadcasts is
      the temporary, X itself is unchanged *)
  Definition na_eval (P : NAParams) (X : matrix) : M (matrix * vec) :=
    '(_, f) <- eval_pop (na_mode P) (map (unnormalize (na_lower P) (na_upper P)) X) ;;
    ret (X, f).

  Record NAS := mkNAS {
    nas_X : matrix; nas_pbest : matrix; nas_gbest : vec; nas_pbestfit : vec; nas_gfit : T;
    nas_pfit : vec; nas_Xall : matrix; nas_Xallfit : vec; nas_rec : option Rec }.

  (** na/_na.py:291: the cell limits along axis j *)
  Definition na_lims (xkj d1 : T) (Uj d2 : vec) : vec :=
    map2 (fun u d2 => nlit 5 (-1) * (xkj + u + (d1 - d2) / (xkj - u))) Uj d2.

  (** na/_na.py:293-294 *)
  Definition na_low (lim : vec) (x : T) : T :=
    match filter (fun l => l <=? x) lim with
    | [] => n0
    | ls => pymax (vmax ls) n0
    end.
  (** na/_na.py:296-297 *)
  Definition na_high (lim : vec) (x : T) : T :=
    match filter (fun l => x <=? l) lim with
    | [] => n1
    | ls => pymin (vmin ls) n1
    end.

  (** na/_na.py:285-303, one axis; the accumulator is (X[i], d1, d2) *)
  Definition na_axis (d : nat) (mask : list bool) (xk : vec) (U : matrix)
      (acc : vec * T * vec) (j : nat) : M (vec * T * vec) :=
    let '(x, d1, d2) := acc in
    if negb (nth j mask false) then ret (upd j n0 x, d1, d2)
    else
      let xkj := nth j xk n0 in
      let lim := na_lims xkj d1 (map (fun u => nth j u n0) U) d2 in
      let xj := nth j x n0 in
      v <- uniform1 (na_low lim xj) (na_high lim xj) ;;
      let x := upd j v x in
      if (S j <? d)%nat then
        ret (x,
             d1 + (nsq (xkj - nth j x n0) - nsq (nth (S j) xk n0 - nth (S j) x n0)),
             map2 (fun d2 u => d2 + (nsq (nth j u n0 - nth j x n0)
                                     - nsq (nth (S j) u n0 - nth (S j) x n0))) d2 U)
      else ret (x, d1, d2).

  (** na/_na.py:277-303, one new model *)
  Definition na_one (P : NAParams) (mask : list bool) (Xall : matrix) (ix : list nat) (i : nat)
    : M vec :=
    let k := nth (i mod na_nr P) ix 0%nat in
    let xk := nth k Xall [] in
    let U := del k Xall in
    let d2 := map (fun u => vsum (map nsq (vsub (tl u) (tl xk)))) U in
    acc <- foldM (na_axis (na_d P) mask xk U) (xk, n0, d2) (seq 0 (na_d P)) ;;
    ret (fst (fst acc)).

  (** na/_na.py:265-305 *)
  Definition na_mutation (P : NAParams) (Xall : matrix) (Xallfit : vec) : M matrix :=
    let mask := span_mask (na_lower P) (na_upper P) in
    let ix := firstn (na_nr P) (e_argsort Xallfit) in
    mapM (na_one P mask Xall ix) (seq 0 (na_p P)).

  (** na/_na.py:214-234 *)
  Definition na_step (P : NAParams) (it : Z) (s : NAS) : M (NAS * option Z) :=
    X <- na_mutation P (nas_Xall s) (nas_Xallfit s) ;;
    sel <- selection_sync it X (nas_gbest s) (nas_pbest s) (nas_pbestfit s) (na_maxiter P)
                          (na_xtol P) (na_ftol P) (na_eval P) ;;
    let un := unnormalize (na_lower P) (na_upper P) in
    let best := best_row X (ss_candfun sel) in
    r <- rec_write (na_nout P) (na_maxiter P) it (map un X) (ss_candfun sel)
                   (un (fst best), snd best) (nas_rec s) ;;
    ret (mkNAS X (ss_x sel) (ss_best sel) (ss_xfun sel) (ss_bestfun sel) (ss_candfun sel)
               (X ++ nas_Xall s) (ss_candfun sel ++ nas_Xallfit s) r,
         ss_status sel).

  Definition na_drv (P : NAParams) : Drv NAS := {|
    d_step := na_step P;
    d_post := fun _ s => ret s;
    d_pop := fun s => map (unnormalize (na_lower P) (na_upper P)) (nas_X s);
    d_x := fun s => unnormalize (na_lower P) (na_upper P) (nas_gbest s);
    d_fun := nas_gfit;
    d_nfev := fun it _ => (it * Z.of_nat (na_p P))%Z;
    d_rec := nas_rec |}.

  (** na/_na.py:134-262 *)
  Definition na (a : Args) (nrperc : T) : M OptRes :=
    mode <- eval_kindM true (a_workers a) (a_backend a) ;;
    let d := nd_len (a_bounds a) in
    '(lower, upper) <- unpack_bounds (a_bounds a) ;;
    let p := Z.to_nat (a_popsize a) in
    nr <- orelse (ntrunc (nrperc * nZ (a_popsize a))) ValueError ;;
    let nr := Z.to_nat (Z.max 1 nr) in
    X <- match a_x0 a with Some x => ret (nd_rows x) | None => lhs p d lower upper end ;;
    let X := map (normalize lower upper) X in
    let P0 := mkNAParams p d nr lower upper (a_maxiter a) (a_xtol a) (a_ftol a) mode None in
    '(_, pfit) <- na_eval P0 X ;;
    gb <- np_argmin pfit ;;
    let gfit := nth gb pfit n0 in
    let gbest := nth gb X [] in
    nout <- rec_alloc (a_return_all a) (a_verbosity a) (a_popsize a) (a_maxiter a) ;;
    (* na/_na.py:193,199: the first slice is recorded in normalised coordinates *)
    r <- rec_write nout (a_maxiter a) 1 X pfit (gbest, gfit)
           (match nout with Some _ => Some ([], []) | None => None end) ;;
    let P := mkNAParams p d nr lower upper (a_maxiter a) (a_xtol a) (a_ftol a) mode nout in
    let s := mkNAS X X gbest pfit gfit pfit X pfit r in
    let D := na_drv P in
    when (has_cb a) (call_cb (d_pop D s) (cb_state D 1 s)) ;;;
    drive D (has_cb a) (fuel (a_maxiter a)) 1 s.

  Record NAArgs := mkNAArgs { naa : Args; naa_nrperc : T }.

  (** na/_na.py:11-131 *)
  Definition na_minimize (A : NAArgs) : M OptRes :=
    let a := naa A in
    check_pop a ;;;
    raise_if (outside_open (nZ 0) (naa_nrperc A) (nZ 1)) ValueError ;;;
    seed_and_cb a ;;;
    na a (naa_nrperc A).

  (** The value that the parameter [callback] gets when the caller of [na] does not pass it
      (na/_na.py:26: [callback=True], which is not callable). *)
  Definition na_default_callback : CbArg := CbBad.
End NA.
