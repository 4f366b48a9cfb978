(** The samplers: stochopy/sample. *)
From Verif Require Import Base Num Env Common DE.

Section Sample.
  Context {N : Num} {E : Env N}.
  Local Open Scope num_scope.

  Record SampRes := mkSampRes {
    sr_x : vec; sr_fun : T; sr_nit : Z; sr_accept : T; sr_nfev : option Z;
    sr_all : option (matrix * vec) }.

  (** sample/_common.py:4-9: for 'Reject' the comparison is computed and dropped, so the function
      returns None, which is false. *)
  Definition in_search_space (x lower upper : vec) (constraints : option string) : bool :=
    match constraints with
    | Some c =>
        if String.eqb c "Reject" then
          let _ := forallb (fun b => b) (map2 nleb lower x)
                   && forallb (fun b => b) (map2 nleb x upper) in
          false
        else true
    | None => true
    end.

  (** Arguments shared by the two samplers. *)
  Record SArgs := mkSArgs {
    s_callable : bool; s_bounds : nd; s_x0 : option nd; s_maxiter : Z;
    s_stepsize : nd; s_stepsize_array : bool;      (* stepsize is an ndarray *)
    s_seed : option Z; s_constraints : option string; s_return_all : bool;
    s_callback : CbArg }.

  (** sample/mcmc/_mcmc.py:68-80, sample/hmc/_hmc.py:81-95: [len] of a scalar is a TypeError *)
  Definition s_check_x0 (a : SArgs) : M (vec * vec) :=
    raise_if (negb (s_callable a)) TypeError ;;;
    raise_if (negb (ndim_is 2 (s_bounds a))) ValueError ;;;
    '(lower, upper) <- unpack_bounds (s_bounds a) ;;
    match s_x0 a with
    | None => ret tt
    | Some (D0 _) => raise TypeError
    | Some x => raise_if (negb (nd_len x =? nd_len (s_bounds a))%nat) ValueError
    end ;;;
    ret (lower, upper).

  (** sample/mcmc/_mcmc.py:83-89, sample/hmc/_hmc.py:102-108: an ndarray is modified in place.
      A 2-D stepsize is modelled as ValueError (numpy broadcasting would fail or misbehave). *)
  Definition s_steps (a : SArgs) (lower upper : vec) : M vec :=
    let d := nd_len (s_bounds a) in
    let st := match s_stepsize a with D0 x => D1 (repeat x d) | y => y end in
    raise_if (negb (nd_len st =? d)%nat) ValueError ;;;
    match st with
    | D1 v =>
        let v := map2 (fun s lu => s * (nlit 5 (-1) * (snd lu - fst lu))) v (combine lower upper) in
        when (match s_stepsize a with D1 _ => s_stepsize_array a | _ => false end)
             (set_arg [v]) ;;;
        ret v
    | _ => raise ValueError
    end.

  Definition s_seed_cb (a : SArgs) : M unit :=
    seed (s_seed a) ;;;
    raise_if (match s_callback a with CbBad => true | _ => false end) ValueError.
  Definition s_has_cb (a : SArgs) : bool := match s_callback a with CbFun => true | _ => false end.

  (** sample/mcmc/_mcmc.py:106-108, sample/hmc/_hmc.py:128-130.  A 2-D x0 is modelled as
      ValueError. *)
  Definition s_first (a : SArgs) (lower upper : vec) : M vec :=
    raise_if (s_maxiter a <? 0)%Z ValueError ;;;
    x <- match s_x0 a with
         | None => uniform_vec lower upper
         | Some (D1 v) => ret v
         | Some _ => raise ValueError
         end ;;
    raise_if (s_maxiter a =? 0)%Z IndexError ;;;
    ret x.

  (** State of a chain: samples and values so far (xall[:i], funall[:i]). *)
  Record Chain := mkChain {
    ch_x : matrix; ch_f : vec; ch_acc : Z; ch_imin : nat; ch_fmin : T }.

  (** The first callback: sample/mcmc/_mcmc.py:112-117, sample/hmc/_hmc.py:134-139 *)
  Definition s_first_cb (a : SArgs) (x : vec) (f : T) : M unit :=
    when (s_has_cb a)
      (call_scb x {| scb_x := x; scb_fun := f; scb_nit := 1; scb_accept := n1;
                     scb_all := if s_return_all a then Some ([x], [f]) else None |}).

  (** The later callbacks: sample/mcmc/_mcmc.py:146-156 and sample/hmc/_hmc.py:177-187; [n]
      samples exist, the state shows only the first n - 1 of them. *)
  Definition s_cb (a : SArgs) (c : Chain) : M unit :=
    let n := length (ch_x c) in
    when (s_has_cb a)
      (call_scb (nth (n - 1) (ch_x c) [])
         {| scb_x := nth (ch_imin c) (ch_x c) []; scb_fun := nth (ch_imin c) (ch_f c) n0;
            scb_nit := Z.of_nat n; scb_accept := nZ (ch_acc c) / nN n;
            scb_all := if s_return_all a
                       then Some (firstn (n - 1) (ch_x c), firstn (n - 1) (ch_f c)) else None |}).

  (** Appending an accepted sample (mcmc 138-140, hmc 168-172) or repeating the last one
      (mcmc 141-143, hmc 173-175). *)
  Definition ch_accept (c : Chain) (x : vec) (f : T) : Chain :=
    let '(imin, fmin) := if f <? ch_fmin c then (length (ch_x c), f)
                         else (ch_imin c, ch_fmin c) in
    mkChain (ch_x c ++ [x]) (ch_f c ++ [f]) (ch_acc c + 1) imin fmin.
  Definition ch_last_x (c : Chain) : vec := nth (length (ch_x c) - 1) (ch_x c) [].
  Definition ch_last_f (c : Chain) : T := nth (length (ch_f c) - 1) (ch_f c) n0.
  Definition ch_reject (c : Chain) : Chain :=
    mkChain (ch_x c ++ [ch_last_x c]) (ch_f c ++ [ch_last_f c]) (ch_acc c)
            (ch_imin c) (ch_fmin c).

  (** [log_alpha > np.log(np.random.rand())] (mcmc 134-135, hmc 164-165) *)
  Definition metropolis (delta u : T) : bool := nln u <? pymin n0 delta.

  (** ** Metropolis-Hastings: sample/mcmc/_mcmc.py *)

  Record MCArgs := mkMCArgs { mca : SArgs; mca_perc : T }.

  Record MCParams := mkMCParams {
    mc_d : nat; mc_b : nat; mc_lower : vec; mc_upper : vec; mc_step : vec; mc_maxiter : Z;
    mc_args : SArgs }.

  (** sample/mcmc/_mcmc.py:125-129: the proposal; ValueError when the shapes differ (the last,
      partial block: the length of the random vector exceeds the slice) *)
  Definition mc_propose (P : MCParams) (j : nat) (x : vec) : M vec :=
    let jmax := Nat.min (mc_d P) (j + mc_b P - 1) in
    z <- randn_vec (jmax - j + 1) ;;
    let st := slice j (jmax + 1) (mc_step P) in
    raise_if (negb (length st =? jmax - j + 1)%nat) ValueError ;;;
    let pert := vmul z st in
    ret (firstn j x ++ vadd (slice j (jmax + 1) x) pert ++ skipn (jmax + 1) x).

  (** sample/mcmc/_mcmc.py:124-156 for one j *)
  Definition mc_move (P : MCParams) (j : nat) (c : Chain) : M Chain :=
    y <- mc_propose P j (ch_last_x c) ;;
    c' <- (if in_search_space y (mc_lower P) (mc_upper P) (s_constraints (mc_args P)) then
             fy <- call_fun y ;;
             u <- rand ;;
             ret (if metropolis (ch_last_f c - fy) u then ch_accept c y fy else ch_reject c)
           else ret (ch_reject c)) ;;
    s_cb (mc_args P) c' ;;;
    ret c'.

  Definition mc_full (P : MCParams) (c : Chain) : bool :=
    (Z.of_nat (length (ch_x c)) =? mc_maxiter P)%Z.

  (** sample/mcmc/_mcmc.py:124,158-159: the loop over blocks *)
  Fixpoint mc_inner (P : MCParams) (js : list nat) (c : Chain) : M Chain :=
    match js with
    | [] => ret c
    | j :: js =>
        c <- mc_move P j c ;;
        if mc_full P c then ret c else mc_inner P js c
    end.

  (** sample/mcmc/_mcmc.py:123: the outer loop *)
  Fixpoint mc_outer (P : MCParams) (fuel : nat) (c : Chain) : M Chain :=
    if (Z.of_nat (length (ch_x c)) <? mc_maxiter P)%Z then
      match fuel with
      | O => raise OutOfFuel
      | S k => c <- mc_inner P (arange 0 (mc_d P) (mc_b P)) c ;; mc_outer P k c
      end
    else ret c.

  (** sample/mcmc/_mcmc.py:11-170; [fl] is the fuel of the outer loop *)
  Definition mcmc_fuel (fl : nat) (A : MCArgs) : M SampRes :=
    let a := mca A in
    '(lower, upper) <- s_check_x0 a ;;
    steps <- s_steps a lower upper ;;
    raise_if (outside (nZ 0) (mca_perc A) (nZ 1)) ValueError ;;;
    let d := nd_len (s_bounds a) in
    b <- orelse (ntrunc (mca_perc A * nN d)) ValueError ;;
    let b := Z.to_nat (Z.max 1 b) in
    s_seed_cb a ;;;
    x <- s_first a lower upper ;;
    f <- call_fun x ;;
    s_first_cb a x f ;;;
    let P := mkMCParams d b lower upper steps (s_maxiter a) a in
    c <- mc_outer P fl (mkChain [x] [f] 0 0 ninf) ;;
    ret {| sr_x := nth (ch_imin c) (ch_x c) []; sr_fun := ch_fmin c; sr_nit := s_maxiter a;
           sr_accept := nZ (ch_acc c) / nZ (s_maxiter a); sr_nfev := None;
           sr_all := if s_return_all a then Some (ch_x c, ch_f c) else None |}.

  Definition mcmc_sample (A : MCArgs) : M SampRes :=
    mcmc_fuel (Z.to_nat (s_maxiter (mca A))) A.

  (** ** Hamiltonian Monte-Carlo: sample/hmc/_hmc.py *)

  Inductive JacArg := JacNone | JacBad (* not callable *) | JacFun.

  Record HMCArgs := mkHMCArgs {
    hma : SArgs; hma_nleap : Z; hma_jac : JacArg; hma_fd : T }.

  (** sample/hmc/_hmc.py:204-214: the counting wrapper around the objective; [nf] is
      wrapper.nfev *)
  Definition count_fun (nf : Z) (x : vec) : M (T * Z) :=
    y <- call_fun x ;; ret (y, (nf + 1)%Z).

  (** sample/hmc/_hmc.py:224-231 for one i; the accumulator is (x1, x2, grad, nfev) *)
  Definition ng_one (h : T) (acc : vec * vec * vec * Z) (i : nat) : M (vec * vec * vec * Z) :=
    let '(x1, x2, g, nf) := acc in
    let x1 := upd i (nth i x1 n0 - h) x1 in
    let x2 := upd i (nth i x2 n0 + h) x2 in
    '(f2, nf) <- count_fun nf x2 ;;
    '(f1, nf) <- count_fun nf x1 ;;
    let g := g ++ [f2 - f1] in
    let x1 := upd i (nth i x1 n0 + h) x1 in
    let x2 := upd i (nth i x2 n0 - h) x2 in
    ret (x1, x2, g, nf).

  (** sample/hmc/_hmc.py:217-233 *)
  Definition numerical_gradient (h : T) (nf : Z) (x : vec) : M (vec * Z) :=
    '(_, _, g, nf) <- foldM (ng_one h) (x, x, [], nf) (seq 0 (length x)) ;;
    ret (map (fun v => nlit 5 (-1) * v / h) g, nf).

  (** sample/hmc/_hmc.py:114-117: the lambda of the second branch refers to itself *)
  Definition hmc_jac (j : JacArg) (h : T) (nf : Z) (q : vec) : M (vec * Z) :=
    match j with
    | JacFun => raise RecursionError
    | _ => numerical_gradient h nf q
    end.

  (** sample/hmc/_hmc.py:150,153,155: p -= k * stepsize * jac(q), k = 0.5 or nothing *)
  Definition half_kick {A : Arith} (step p g : list T) : list T :=
    vsub p (map2 (fun s g => nlit 5 (-1) * s * g) step g).
  Definition kick {A : Arith} (step p g : list T) : list T := vsub p (vmul step g).
  (** sample/hmc/_hmc.py:151,154: q += stepsize * p *)
  Definition drift {A : Arith} (step q p : list T) : list T := vadd q (vmul step p).

  (** sample/hmc/_hmc.py:152-154 *)
  Fixpoint leap_loop (jac : Z -> vec -> M (vec * Z)) (step : vec) (n : nat) (q p : vec) (nf : Z)
    : M (vec * vec * Z) :=
    match n with
    | O => ret (q, p, nf)
    | S k =>
        '(g, nf) <- jac nf q ;;
        let p := kick step p g in
        let q := drift step q p in
        leap_loop jac step k q p nf
    end.

  (** sample/hmc/_hmc.py:150-155 *)
  Definition leapfrog (jac : Z -> vec -> M (vec * Z)) (step : vec) (nleap : nat) (q p : vec)
      (nf : Z) : M (vec * vec * Z) :=
    '(g, nf) <- jac nf q ;;
    let p := half_kick step p g in
    let q := drift step q p in
    '(q, p, nf) <- leap_loop jac step nleap q p nf ;;
    '(g, nf) <- jac nf q ;;
    ret (q, half_kick step p g, nf).

  Definition kinetic {A : Arith} (p : list T) : T := nlit 5 (-1) * vsum (map nsq p).

  Record HMCParams := mkHMCParams {
    hm_lower : vec; hm_upper : vec; hm_step : vec; hm_nleap : nat; hm_jac : JacArg; hm_fd : T;
    hm_d : nat; hm_args : SArgs }.

  (** sample/hmc/_hmc.py:145-187: one iteration *)
  Definition hmc_move (P : HMCParams) (cn : Chain * Z) : M (Chain * Z) :=
    let '(c, nf) := cn in
    let q0 := ch_last_x c in
    p0 <- randn_vec (hm_d P) ;;
    '(q, p, nf) <- leapfrog (hmc_jac (hm_jac P) (hm_fd P)) (hm_step P) (hm_nleap P) q0 p0 nf ;;
    '(c', nf) <-
       (if in_search_space q (hm_lower P) (hm_upper P) (s_constraints (hm_args P)) then
          '(U0, nf) <- count_fun nf q0 ;;
          '(U, nf) <- count_fun nf q ;;
          u <- rand ;;
          ret (if metropolis (U0 - U + kinetic p0 - kinetic p) u
               then ch_accept c q U else ch_reject c, nf)
        else ret (ch_reject c, nf)) ;;
    s_cb (hm_args P) c' ;;;
    ret (c', nf).

  (** sample/hmc/_hmc.py:144: for i in range(1, maxiter) *)
  Fixpoint hmc_loop (P : HMCParams) (n : nat) (cn : Chain * Z) : M (Chain * Z) :=
    match n with
    | O => ret cn
    | S k => cn <- hmc_move P cn ;; hmc_loop P k cn
    end.

  (** sample/hmc/_hmc.py:11-201 *)
  Definition hmc_sample (A : HMCArgs) : M SampRes :=
    let a := hma A in
    '(lower, upper) <- s_check_x0 a ;;
    raise_if (hma_nleap A <? 1)%Z ValueError ;;;
    steps <- s_steps a lower upper ;;
    raise_if (match hma_jac A with JacBad => true | _ => false end) TypeError ;;;
    s_seed_cb a ;;;
    x <- s_first a lower upper ;;
    '(f, nf) <- count_fun 0 x ;;
    s_first_cb a x f ;;;
    let P := mkHMCParams lower upper steps (Z.to_nat (hma_nleap A)) (hma_jac A) (hma_fd A)
                         (nd_len (s_bounds a)) a in
    '(c, nf) <- hmc_loop P (Z.to_nat (s_maxiter a) - 1) (mkChain [x] [f] 0 0 ninf, nf) ;;
    idx <- np_argmin (ch_f c) ;;
    ret {| sr_x := nth idx (ch_x c) []; sr_fun := nth idx (ch_f c) n0; sr_nit := s_maxiter a;
           sr_accept := nZ (ch_acc c) / nZ (s_maxiter a); sr_nfev := Some nf;
           sr_all := if s_return_all a then Some (ch_x c, ch_f c) else None |}.
End Sample.
