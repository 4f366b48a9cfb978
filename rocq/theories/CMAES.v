(** CMA-ES: stochopy/optimize/cmaes. *)
From Verif Require Import Base Num Env Common DE Mat.

Section CMAES.
  Context {N : Num} {E : Env N}.
  Local Open Scope num_scope.

  (** ** Strategy parameters (cmaes/_cmaes.py:183-196) *)

  (** cmaes/_cmaes.py:187: log(mu + 0.5) - log(arange(1, mu + 1)) *)
  Definition raw_weights {A : Arith} (mu : nat) : list T :=
    map (fun k => nln (nN mu + nlit 5 (-1)) - nln (nN k)) (seq 1 mu).
  (** cmaes/_cmaes.py:188 *)
  Definition cma_weights {A : Arith} (mu : nat) : list T :=
    let w := raw_weights mu in map (fun x => x / vsum w) w.
  (** cmaes/_cmaes.py:189 *)
  Definition cma_mueff {A : Arith} (w : list T) : T := nsq (vsum w) / vsum (map nsq w).
  (** cmaes/_cmaes.py:192-196 *)
  Definition cma_cc {A : Arith} (n mueff : T) : T :=
    (nZ 4 + mueff / n) / (n + nZ 4 + nZ 2 * mueff / n).
  Definition cma_cs {A : Arith} (n mueff : T) : T := (mueff + nZ 2) / (n + mueff + nZ 5).
  Definition cma_c1 {A : Arith} (n mueff : T) : T := nZ 2 / (nsq (n + nlit 13 (-1)) + mueff).
  Definition cma_cmu {A : Arith} (n mueff : T) : T :=
    pymin (n1 - cma_c1 n mueff)
          (nZ 2 * (mueff - nZ 2 + n1 / mueff) / (nsq (n + nZ 2) + mueff)).
  Definition cma_damps {A : Arith} (n mueff : T) : T :=
    n1 + nZ 2 * pymax n0 (nsqrt ((mueff - n1) / (n + n1)) - n1) + cma_cs n mueff.
  (** cmaes/_cmaes.py:205 *)
  Definition cma_chind {A : Arith} (d : nat) : T :=
    nsqrt (nN d) * (n1 - n1 / (nZ 4 * nN d) + n1 / (nZ 21 * nZ (Z.of_nat d * Z.of_nat d))).

  (** ** cmaes/_constraints.py *)
  (** cmaes/_constraints.py:85-87; the loops test [constraints == "Penalize"] *)
  Definition cma_cons_check (c : option string) : M bool :=
    match c with
    | None => ret false
    | Some s => if String.eqb s "Penalize" then ret true else raise KeyError
    end.

  Record PenState := mkPen { pen_w : vec; pen_hist : vec; pen_valid : bool; pen_ini : bool }.

  (** cmaes/_constraints.py:29-31 *)
  Definition clip1 {A : Arith} (x : T) : T :=
    let x := if x <? nZ (-1) then nZ (-1) else x in
    if n1 <? x then n1 else x.

  (** cmaes/_constraints.py:52-54: [ti] and [tx] before line 63 (the second assignment of tx
      overwrites the first one) *)
  Definition pen_ti {A : Arith} (xmean : list T) : list bool :=
    map (fun x => (x <? nZ (-1)) || (n1 <? x)) xmean.
  Definition pen_tx {A : Arith} (xmean : list T) : list T := map (fun x => if n1 <? x then n1 else x) xmean.

  (** cmaes/_constraints.py:63-74 *)
  Definition pen_idx {A : Arith} (d : nat) (mueff sigma : T) (diagC xmean xold : list T) : list bool :=
    map3 (fun ti c xo =>
            let tx := fst (snd ti) - snd (snd ti) in
            fst ti
            && (nZ 3 * pymax n1 (nsqrt (nN d / mueff)) * sigma * nsqrt c <? nabs tx)
            && (nsign tx =? nsign (fst (snd ti) - xo)))
         (combine (pen_ti xmean) (combine xmean (pen_tx xmean))) diagC xold.
  Definition pen_grow {A : Arith} (d : nat) (mueff : T) (idx : list bool) (w : list T) : list T :=
    map2 (fun (i : bool) w =>
            if i then w * npow (nlit 12 (-1)) (pymin n1 (mueff / nZ 10 / nN d)) else w) idx w.

  (** cmaes/_constraints.py:77 *)
  Definition bnd_scale {A : Arith} (diagC : list T) : list T :=
    let l := map nln diagC in
    map (fun c => nexp (nlit 9 (-1) * (nln c - vmean l))) diagC.

  (** cmaes/_constraints.py:80: the penalty of one row *)
  Definition penalty {A : Arith} (valid x w scale : list T) : T :=
    vdot (map nsq (vsub valid x)) (vdiv w scale).

  (** cmaes/_constraints.py:4-82.  [fn] is the objective on standardised points (an MPI Bcast
      overwrites only the temporary unstandardised array). *)
  Definition penalize (p d : nat) (arx : matrix) (xmean xold : vec) (sigma : T) (diagC : vec)
      (mueff : T) (it : Z) (st : PenState) (fn : matrix -> M vec)
    : M (vec * matrix * PenState) :=
    let arxvalid := map (map clip1) arx in
    fit <- fn arxvalid ;;
    let delta := (e_percentile fit (nZ 75) - e_percentile fit (nZ 25))
                 / nN d / vmean diagC / nsq sigma in
    '(delta, hist, valid) <-
       (if delta =? n0 then
          match filter (fun x => n0 <? x) (pen_hist st) with
          | [] => raise ValueError
          | l => ret (vmin l, pen_hist st, pen_valid st)
          end
        else if negb (pen_valid st) then ret (delta, [], true)
        else ret (delta, pen_hist st, pen_valid st)) ;;
    let hist := if nN (length hist) <? nZ 20 + nZ 3 * nN d / nN p
                then hist ++ [delta] else tl hist ++ [delta] in
    let ti := pen_ti xmean in
    let any := existsb (fun b => b) ti in
    let '(w, ini) :=
      if pen_ini st && any
      then (repeat (nlit 20002 (-4) * e_median hist) d, negb (valid && (2 <? it)%Z))
      else (pen_w st, pen_ini st) in
    let w := if any then pen_grow d mueff (pen_idx d mueff sigma diagC xmean xold) w else w in
    let scale := bnd_scale diagC in
    let fit := map3 (fun f v x => f + penalty v x w scale) fit arxvalid arx in
    ret (fit, arxvalid, mkPen w hist valid ini).

  (** ** Convergence (cmaes/_cmaes.py:360-434) *)
  (** [l[a : b]] for 0 <= a, as in arbestfitness[it - ilim : it + 1] *)
  Definition converge (it : Z) (d : nat) (maxiter : Z) (xmean xold : vec)
      (hist arfit : vec) (best : T) (sigma insigma : T) (ilim : Z) (pc : vec)
      (xtol ftol : T) (diagC : vec) (BD : option (matrix * vec)) : option Z :=
    let i := Z.to_nat (it mod Z.of_nat d) in
    let sq := map nsqrt diagC in
    let win := slice (Z.to_nat (it - ilim)) (Z.to_nat (it + 1)) hist in
    let all := arfit ++ hist in
    if (maxiter <=? it)%Z then Some (-1)%Z
    else if (vnorm (vsub xold xmean) <=? xtol) && (best <? ftol) then Some 0%Z
    else if best <=? ftol then Some 1%Z
    else if match BD with
            | None => false
            | Some (B, D) =>
                forallb (fun b => nabs (nlit 1 (-1) * sigma * b * nth i D n0) <? nlit 1 (-10))
                        (col B i)
            end then Some (-2)%Z
    else if existsb (fun s => nlit 2 (-1) * sigma * s <? nlit 1 (-10)) sq then Some (-3)%Z
    else if match BD with
            | None => false
            | Some (_, D) => nlit 1 7 * vmin D <? vmax D
            end then Some (-4)%Z
    else if (ilim <=? it)%Z && (vmax win - vmin win <? nlit 1 (-10)) then Some (-5)%Z
    else if existsb (fun s => nlit 1 3 * insigma <? sigma * s) sq then Some (-6)%Z
    else if (2 <? it)%Z && (vmax all - vmin all <? nlit 1 (-12)) then Some (-7)%Z
    else if forallb (fun x => sigma * x <? nlit 1 (-11) * insigma) (map nabs pc ++ [vmax sq])
    then Some (-8)%Z
    else None.

  (** ** The main loop *)
  (** cmaes/_cmaes.py:168-171 *)
  Definition cma_xm (lower upper : vec) : vec := map2 (fun l u => nlit 5 (-1) * (u + l)) lower upper.
  Definition cma_xstd (lower upper : vec) : vec := map2 (fun l u => nlit 5 (-1) * (u - l)) lower upper.
  Definition standardize (xm xstd x : vec) : vec := vdiv (vsub x xm) xstd.
  Definition unstandardize (xm xstd x : vec) : vec := vadd (vmul x xstd) xm.

  Record CMAParams := mkCMAParams {
    cm_p : nat; cm_d : nat; cm_mu : nat; cm_w : vec; cm_mueff : T;
    cm_xm : vec; cm_xstd : vec; cm_pen : bool;
    cm_maxiter : Z; cm_xtol : T; cm_ftol : T; cm_insigma : T; cm_ilim : Z;
    cm_mode : Mode; cm_nout : option Z }.

  Definition cma_un (P : CMAParams) : vec -> vec := unstandardize (cm_xm P) (cm_xstd P).

  (** cmaes/_cmaes.py:173 *)
  Definition cma_eval (P : CMAParams) (X : matrix) : M vec :=
    '(_, f) <- eval_pop (cm_mode P) (map (cma_un P) X) ;; ret f.

  Record CMAS := mkCMAS {
    cs_xmean : vec; cs_xold : vec; cs_pc : vec; cs_ps : vec;
    cs_B : matrix; cs_D : vec; cs_C : matrix; cs_inv : matrix; cs_sigma : T;
    cs_pen : PenState; cs_nfev : Z; cs_eigeneval : Z; cs_hist : vec;
    cs_valid : matrix; cs_fit : vec; cs_index : list nat; cs_rec : option Rec }.

  (** cmaes/_cmaes.py:232-237 *)
  Definition cma_sample (P : CMAParams) (s : CMAS) : M matrix :=
    replicateM (cm_p P)
      (z <- randn_vec (cm_d P) ;;
       ret (vadd (cs_xmean s) (vscale (cs_sigma s) (mvec (cs_B s) (vmul (cs_D s) z))))).

  (** cmaes/_cmaes.py:240-259, shared with vdcma/_vdcma.py:258-277 *)
  Definition cma_fitness (P : CMAParams) (arx : matrix) (xmean xold : vec) (sigma : T)
      (diagC : vec) (it : Z) (pen : PenState) : M (vec * matrix * PenState) :=
    if cm_pen P
    then penalize (cm_p P) (cm_d P) arx xmean xold sigma diagC (cm_mueff P) it pen (cma_eval P)
    else fit <- cma_eval P arx ;; ret (fit, arx, pen).

  (** cmaes/_cmaes.py:261-269, vdcma/_vdcma.py:279-287 *)
  Definition cma_record (P : CMAParams) (it : Z) (valid : matrix) (fit : vec) (r : option Rec)
    : M (option Rec) :=
    let best := best_row valid fit in
    rec_write (cm_nout P) (cm_maxiter P) it (map (cma_un P) valid) fit
              (cma_un P (fst best), snd best) r.

  (** [arbestfitness[it - 1] = v]: IndexError when it > maxiter *)
  Definition hist_set (P : CMAParams) (it : Z) (v : T) (h : vec) : M vec :=
    if (cm_maxiter P <? it)%Z then raise IndexError else ret (upd (Z.to_nat (it - 1)) v h).

  (** cmaes/_cmaes.py:290-295: the covariance update; [y] are the mu selected steps (artmp) *)
  Definition cov_update {A : Arith} (d : nat) (c1 cc cmu : T) (w : list T)
      (y : list (list T)) (pc : list T) (cond : bool) (C : list (list T)) : list (list T) :=
    let C1 := mscale (n1 - c1 - cmu) C in
    let C2 := madd C1 (mscale_l cmu (mmul d (mmul (length w) (mtrans d y) (diagm w)) y)) in
    let C3 := madd C2 (mscale_l c1 (outer pc pc)) in
    if cond then map (map (fun x => x + n0)) C3
    else madd C3 (mscale_l (c1 * cc * (nZ 2 - cc)) C).

  (** cmaes/_cmaes.py:280-287 *)
  Definition cma_ps (P : CMAParams) (s : CMAS) (dx : vec) : vec :=
    let n := nN (cm_d P) in
    let cs := cma_cs n (cm_mueff P) in
    vadd (vscale (n1 - cs) (cs_ps s))
         (map (fun x => x / cs_sigma s)
              (vscale (nsqrt (cs * (nZ 2 - cs) * cm_mueff P)) (mvec (cs_inv s) dx))).
  Definition cma_cond (P : CMAParams) (nfev : Z) (ps : vec) : bool :=
    let n := nN (cm_d P) in
    let cs := cma_cs n (cm_mueff P) in
    vnorm ps / nsqrt (n1 - npow (n1 - cs) (nZ 2 * nZ nfev / nN (cm_p P))) / cma_chind (cm_d P)
      <? nlit 14 (-1) + nZ 2 / (n + n1).
  Definition cma_pc (P : CMAParams) (s : CMAS) (cond : bool) (dx : vec) : vec :=
    let cc := cma_cc (nN (cm_d P)) (cm_mueff P) in
    let pc := map (fun x => x * (n1 - cc)) (cs_pc s) in
    if cond then
      vadd pc (map (fun x => x / cs_sigma s)
                   (vscale (nsqrt (cc * (nZ 2 - cc) * cm_mueff P)) dx))
    else map (fun x => x + n0) pc.

  (** cmaes/_cmaes.py:230-331 *)
  Definition cma_step (P : CMAParams) (it : Z) (s : CMAS) : M (CMAS * option Z) :=
    let d := cm_d P in
    let n := nN d in
    let mueff := cm_mueff P in
    let c1 := cma_c1 n mueff in
    let cc := cma_cc n mueff in
    let cmu := cma_cmu n mueff in
    arx <- cma_sample P s ;;
    '(fit, valid, pen) <- cma_fitness P arx (cs_xmean s) (cs_xold s) (cs_sigma s)
                                      (mdiag (cs_C s)) it (cs_pen s) ;;
    let nfev := (cs_nfev s + Z.of_nat (cm_p P))%Z in
    r <- cma_record P it valid fit (cs_rec s) ;;
    let index := e_argsort fit in
    let xold := cs_xmean s in
    let sel := map (fun k => nth k arx []) (firstn (cm_mu P) index) in
    let xmean := vmat d (cm_w P) sel in
    let best := nth (nth 0 index 0%nat) fit n0 in
    hist <- hist_set P it best (cs_hist s) ;;
    let dx := vsub xmean xold in
    let ps := cma_ps P s dx in
    let cond := cma_cond P nfev ps in
    let pc := cma_pc P s cond dx in
    let y := map (fun x => map (fun v => v / cs_sigma s) (vsub x xold)) sel in
    let C := cov_update d c1 cc cmu (cm_w P) y pc cond (cs_C s) in
    let cs := cma_cs n mueff in
    let sigma := cs_sigma s * nexp (cs / cma_damps n mueff * (vnorm ps / cma_chind d - n1)) in
    '(B, D, C, inv, ee) <-
       (if nN (cm_p P) / (c1 + cmu) / n / nZ 10 <? nZ (nfev - cs_eigeneval s) then
          let C := symm d C in
          '(D, B) <- orelse (e_eigh C) LinAlgError ;;
          let idx := e_argsort D in
          let D := map (fun k => nsqrt (nth k D n0)) idx in
          let B := map (fun row => map (fun k => nth k row n0) idx) B in
          ret (B, D, C, mmul d (mmul d B (diagm (map (fun x => n1 / x) D))) (mtrans d B), nfev)
        else ret (cs_B s, cs_D s, C, cs_inv s, cs_eigeneval s)) ;;
    let st := converge it d (cm_maxiter P) xmean xold hist fit best sigma (cm_insigma P)
                       (cm_ilim P) pc (cm_xtol P) (cm_ftol P) (mdiag C) (Some (B, D)) in
    ret (mkCMAS xmean xold pc ps B D C inv sigma pen nfev ee hist valid fit index r, st).

  (** cmaes/_cmaes.py:334-343,345-353 *)
  Definition cma_best (s : CMAS) : nat := nth 0 (cs_index s) 0%nat.
  Definition cma_drv (P : CMAParams) : Drv CMAS := {|
    d_step := cma_step P;
    d_post := fun _ s => ret s;
    d_pop := fun s => map (cma_un P) (cs_valid s);
    d_x := fun s => cma_un P (nth (cma_best s) (cs_valid s) []);
    d_fun := fun s => nth (cma_best s) (cs_fit s) n0;
    d_nfev := fun _ s => cs_nfev s;
    d_rec := cs_rec |}.

  Record CMAArgs := mkCMAArgs { caa : Args; caa_sigma : T; caa_muperc : T }.

  (** cmaes/_cmaes.py:95-121, vdcma/_vdcma.py:96-122 (identical) *)
  Definition cma_check (A : CMAArgs) : M unit :=
    let a := caa A in
    raise_if (negb (a_callable a)) TypeError ;;;
    raise_if (negb (ndim_is 2 (a_bounds a))) ValueError ;;;
    raise_if match a_x0 a with
             | None => false
             | Some x => negb (ndim_is 1 x) || negb (nd_len x =? nd_len (a_bounds a))%nat
             end ValueError ;;;
    raise_if (caa_sigma A <=? nZ 0) ValueError ;;;
    raise_if (outside_open (nZ 0) (caa_muperc A) (nZ 1)) ValueError ;;;
    seed_and_cb a.

  (** cmaes/_cmaes.py:211-222 and vdcma/_vdcma.py:219-229: allocations and ilim.  A negative
      popsize fails later (the exception depends on ndim): modelled as ValueError. *)
  Definition cma_alloc (a : Args) : M (option Z * Z) :=
    let d := nd_len (a_bounds a) in
    nout <- rec_alloc (a_return_all a) (a_verbosity a) (a_popsize a) (a_maxiter a) ;;
    raise_if (a_maxiter a <? 0)%Z ValueError ;;;
    raise_if (a_popsize a =? 0)%Z ZeroDivisionError ;;;
    raise_if (a_popsize a <? 0)%Z ValueError ;;;
    ilim <- orelse (ntrunc (nZ 10 + nZ 30 * nN d / nZ (a_popsize a))) ValueError ;;
    ret (nout, ilim).

  (** cmaes/_cmaes.py:164-189 and vdcma/_vdcma.py:165-190: everything up to mueff. *)
  Definition cma_setup (A : CMAArgs) : M (vec * CMAParams) :=
    let a := caa A in
    mode <- eval_kindM true (a_workers a) (a_backend a) ;;
    let d := nd_len (a_bounds a) in
    '(lower, upper) <- unpack_bounds (a_bounds a) ;;
    let xm := cma_xm lower upper in
    let xstd := cma_xstd lower upper in
    pen <- cma_cons_check (a_constraints a) ;;
    xmean <- match a_x0 a with
             | None => replicateM d (uniform (nZ (-1)) (nZ 1))
             | Some x => ret (standardize xm xstd (nd_vec x))
             end ;;
    mu <- orelse (ntrunc (caa_muperc A * nZ (a_popsize a))) ValueError ;;
    let mu := Z.to_nat mu in
    let w := cma_weights mu in
    ret (xmean, mkCMAParams (Z.to_nat (a_popsize a)) d mu w (cma_mueff w) xm xstd pen
                            (a_maxiter a) (a_xtol a) (a_ftol a) (caa_sigma A) 0 mode None).

  Definition cma_init_pen (d : nat) : PenState := mkPen (repeat n0 d) [n1] false true.

  (** cmaes/_cmaes.py:143-357 *)
  Definition cmaes (A : CMAArgs) : M OptRes :=
    let a := caa A in
    '(xmean, P0) <- cma_setup A ;;
    '(nout, ilim) <- cma_alloc a ;;
    let d := cm_d P0 in
    let P := mkCMAParams (cm_p P0) d (cm_mu P0) (cm_w P0) (cm_mueff P0) (cm_xm P0) (cm_xstd P0)
                         (cm_pen P0) (cm_maxiter P0) (cm_xtol P0) (cm_ftol P0) (cm_insigma P0)
                         ilim (cm_mode P0) nout in
    let s := mkCMAS xmean (e_empty d) (repeat n0 d) (repeat n0 d) (eye d) (repeat n1 d) (eye d)
                    (eye d) (caa_sigma A) (cma_init_pen d) 0 0
                    (repeat n0 (Z.to_nat (a_maxiter a))) [] [] []
                    (match nout with Some _ => Some ([], []) | None => None end) in
    drive (cma_drv P) (has_cb a) (fuel (a_maxiter a)) 0 s.

  (** cmaes/_cmaes.py:12-140 *)
  Definition cmaes_minimize (A : CMAArgs) : M OptRes := cma_check A ;;; cmaes A.
End CMAES.
