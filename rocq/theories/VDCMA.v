(** VD-CMA: stochopy/optimize/vdcma/_vdcma.py. *)
From Verif Require Import Base Num Env Common DE Mat CMAES.

Section VDCMA.
  Context {N : Num} {E : Env N}.
  Local Open Scope num_scope.

  (** vdcma/_vdcma.py:194-199 *)
  Definition vd_cfactor {A : Arith} (n : T) : T := (n - nZ 5) / nZ 6.
  Definition vd_c1 {A : Arith} (n mueff : T) : T :=
    vd_cfactor n * nZ 2 / (nsq (n + nlit 13 (-1)) + mueff).
  Definition vd_cmu {A : Arith} (n mueff : T) : T :=
    pymin (n1 - vd_c1 n mueff)
          (vd_cfactor n * nZ 2 * (mueff - nZ 2 + n1 / mueff) / (nsq (n + nZ 2) + mueff)).

  (** vdcma/_vdcma.py:428-441, without weights (one vector y) *)
  Definition pq_one {A : Arith} (vn : list T) (nv2 : T) (y : list T) : list T * list T :=
    let yv := vdot y vn in
    (map2 (fun y v => nsq y - nv2 / (n1 + nv2) * (yv * y * v) - n1) y vn,
     map2 (fun y v => yv * y - nlit 5 (-1) * (nsq yv + n1 + nv2) * v) y vn).
  (** one row of vdcma/_vdcma.py:434-439: here numpy computes y_vn * (y * vn) *)
  Definition pq_row {A : Arith} (vn : list T) (nv2 : T) (y : list T) : list T * list T :=
    let yv := vdot y vn in
    (map2 (fun y v => nsq y - nv2 / (n1 + nv2) * (yv * (y * v)) - n1) y vn,
     map2 (fun y v => yv * y - nlit 5 (-1) * (nsq yv + n1 + nv2) * v) y vn).
  (** vdcma/_vdcma.py:433-439, with weights *)
  Definition pq_mu {A : Arith} (d : nat) (vn : list T) (nv2 : T) (y : list (list T))
      (w : list T) : list T * list T :=
    let rows := map (pq_row vn nv2) y in
    (vmat d w (map fst rows), vmat d w (map snd rows)).

  (** vdcma/_vdcma.py:444-458 *)
  Definition ngv_ngd {A : Arith} (dvec vn vnn : list T) (nv nv2 alpha : T) (avec : list T)
      (bsca : T) (invavnn pvec qvec : list T) : list T * list T :=
    let vq := vdot vn qvec in
    let rvec := map3 (fun p qv n2 =>
                        p - alpha / (n1 + nv2)
                            * ((nZ 2 + nv2) * fst qv * snd qv - nv2 * vq * n2))
                     pvec (combine qvec vn) vnn in
    let k := bsca * vdot rvec invavnn / (n1 + bsca * vdot vnn invavnn) in
    let svec := map3 (fun r a i => r / a - k * i) rvec avec invavnn in
    let sv := vdot svec vnn in
    (map3 (fun q v s => q / nv - alpha / nv * ((nZ 2 + nv2) * (v * s) - sv * v)) qvec vn svec,
     vmul dvec svec).

  (** vdcma/_vdcma.py:318-329: alpha, avec, bsca, invavnn *)
  Definition vd_alpha {A : Arith} (vmx : list T -> T) (vnn : list T) (nv2 : T)
    : T * list T * T * list T :=
    let gamma := n1 / nsqrt (n1 + nv2) in
    let alpha := nsqrt (nsq nv2 + (n1 + nv2) / vmx vnn * (nZ 2 - gamma)) / (nZ 2 + nv2) in
    let '(alpha, beta) :=
      if alpha <? n1
      then (alpha, (nZ 4 - (nZ 2 - gamma) / vmx vnn) / nsq (n1 + nZ 2 / nv2))
      else (n1, n0) in
    let bsca := nZ 2 * nsq alpha - beta in
    let avec := map (fun x => nZ 2 - (bsca + nZ 2 * nsq alpha) * x) vnn in
    (alpha, avec, bsca, vdiv vnn avec).

  (** vdcma/_vdcma.py:361-363: the truncation factor *)
  Definition vd_upfactor {A : Arith} (vmn : list T -> T) (nv : T) (dvec ngv ngd : list T) : T :=
    let u := n1 in
    let u := pymin u (nlit 7 (-1) * nv / nsqrt (vdot ngv ngv)) in
    pymin u (nlit 7 (-1) * vmn (vdiv dvec (map nabs ngd))).

  Record VDS := mkVDS {
    vs_xmean : vec; vs_xold : vec; vs_dx : vec; vs_ps : T; vs_dvec : vec; vs_vvec : vec;
    vs_nv2 : T; vs_nv : T; vs_vn : vec; vs_vnn : vec; vs_pc : vec; vs_inj : bool;
    vs_sigma : T; vs_pen : PenState; vs_nfev : Z; vs_hist : vec;
    vs_valid : matrix; vs_fit : vec; vs_index : list nat; vs_rec : option Rec }.

  (** vdcma/_vdcma.py:251-256 *)
  Definition vd_diagC {A : Arith} (d : nat) (dvec vvec : list T) : list T :=
    mdiag (mmul d (mmul d (diagm dvec) (madd (eye d) (outer vvec vvec))) (diagm dvec)).

  (** vdcma/_vdcma.py:239-248; [ary[1]] is an IndexError when popsize = 1 *)
  Definition vd_sample (P : CMAParams) (s : VDS) : M matrix :=
    arz <- replicateM (cm_p P) (randn_vec (cm_d P)) ;;
    let k := nsqrt (n1 + vs_nv2 s) - n1 in
    let ary := map (fun z => vmul (vs_dvec s)
                                  (vadd z (vscale k (vscale (vdot z (vs_vn s)) (vs_vn s))))) arz in
    if vs_inj s then
      let ddx := vdiv (vs_dx s) (vs_dvec s) in
      let mnorm := vsum (map nsq ddx) - nsq (vdot ddx (vs_vvec s)) / (n1 + vs_nv2 s) in
      z <- randn_vec (cm_d P) ;;
      let dy := vscale (vnorm z / nsqrt mnorm) (vs_dx s) in
      raise_if (cm_p P <? 2)%nat IndexError ;;;
      ret (upd 1 (vscale (nZ (-1)) dy) (upd 0 dy ary))
    else ret ary.

  (** position of k in l: [np.where(l == k)[0][0]] *)
  Fixpoint index_of (k : nat) (l : list nat) : nat :=
    match l with [] => 0 | x :: t => if (x =? k)%nat then 0 else S (index_of k t) end.

  (** vdcma/_vdcma.py:299-307: (ps, sigma, cond) *)
  Definition vd_sigma (P : CMAParams) (s : VDS) (index : list nat) : T * T * bool :=
    if vs_inj s then
      let a := nZ (Z.of_nat (index_of 1 index) - Z.of_nat (index_of 0 index))
               / (nN (cm_p P) - n1) in
      let ps := vs_ps s + nlit 3 (-1) * (a - vs_ps s) in
      (ps, vs_sigma s * nexp (ps / nsqrt (nN (cm_d P))), ps <? nlit 5 (-1))
    else (vs_ps s, vs_sigma s, true).

  (** vdcma/_vdcma.py:317-371: the new (vvec, dvec); [vmx], [vmn] are np.max, np.min *)
  Definition vd_update {A : Arith} (vmx vmn : list T -> T) (d : nat) (c1 cmu : T) (w : list T)
      (ary : list (list T)) (pc : list T) (cond : bool)
      (dvec vvec : list T) (nv2 nv : T) (vn vnn : list T) : list T * list T :=
    let '(alpha, avec, bsca, invavnn) := vd_alpha vmx vnn nv2 in
    let '(pmu, qmu) := if cmu =? n0 then (repeat n0 d, repeat n0 d)
                       else pq_mu d vn nv2 (map (fun y => vdiv y dvec) ary) w in
    let '(p1, q1) := if c1 =? n0 then (repeat n0 d, repeat n0 d)
                     else pq_one vn nv2 (vdiv pc dvec) in
    let pvec := vscale cmu pmu in
    let qvec := vscale cmu qmu in
    let '(pvec, qvec) := if cond then (vadd pvec (vscale c1 p1), vadd qvec (vscale c1 q1))
                         else (pvec, qvec) in
    let '(ngv, ngd, up) :=
      if n0 <? cmu + c1 then
        let '(ngv, ngd) := ngv_ngd dvec vn vnn nv nv2 alpha avec bsca invavnn pvec qvec in
        (ngv, ngd, vd_upfactor vmn nv dvec ngv ngd)
      else (repeat n0 d, repeat n0 d, n1) in
    (vadd vvec (vscale up ngv), vadd dvec (vscale up ngd)).

  (** vdcma/_vdcma.py:235-397 *)
  Definition vd_step (P : CMAParams) (it : Z) (s : VDS) : M (VDS * option Z) :=
    let d := cm_d P in
    let n := nN d in
    let mueff := cm_mueff P in
    let cc := cma_cc n mueff in
    let c1 := vd_c1 n mueff in
    let cmu := vd_cmu n mueff in
    ary <- vd_sample P s ;;
    let arx := map (fun y => vadd (vs_xmean s) (vscale (vs_sigma s) y)) ary in
    let diagC := vd_diagC d (vs_dvec s) (vs_vvec s) in
    '(fit, valid, pen) <- cma_fitness P arx (vs_xmean s) (vs_xold s) (vs_sigma s) diagC it
                                      (vs_pen s) ;;
    let nfev := (vs_nfev s + Z.of_nat (cm_p P))%Z in
    r <- cma_record P it valid fit (vs_rec s) ;;
    let index := e_argsort fit in
    let top := firstn (cm_mu P) index in
    let dx := vsub (vmat d (cm_w P) (map (fun k => nth k arx []) top))
                   (vscale (vsum (cm_w P)) (vs_xmean s)) in
    let xold := vs_xmean s in
    let xmean := vadd (vs_xmean s) dx in
    let best := nth (nth 0 index 0%nat) fit n0 in
    hist <- hist_set P it best (vs_hist s) ;;
    let '(ps, sigma, cond) := vd_sigma P s index in
    let ysel := map (fun k => nth k ary []) top in
    let pc0 := map (fun x => x * (n1 - cc)) (vs_pc s) in
    let pc := if cond
              then vadd pc0 (vscale (nsqrt (cc * (nZ 2 - cc) * mueff)) (vmat d (cm_w P) ysel))
              else map (fun x => x + n0) pc0 in
    let '(vvec, dvec) := vd_update vmax vmin d c1 cmu (cm_w P) ysel pc cond (vs_dvec s)
                                   (vs_vvec s) (vs_nv2 s) (vs_nv s) (vs_vn s) (vs_vnn s) in
    let nv2 := vdot vvec vvec in
    let nv := nsqrt nv2 in
    let vn := map (fun x => x / nv) vvec in
    let st := converge it d (cm_maxiter P) xmean xold hist fit best sigma (cm_insigma P)
                       (cm_ilim P) pc (cm_xtol P) (cm_ftol P) diagC None in
    ret (mkVDS xmean xold dx ps dvec vvec nv2 nv vn (map nsq vn) pc true sigma pen nfev hist
               valid fit index r, st).

  (** vdcma/_vdcma.py:399-419 *)
  Definition vd_best (s : VDS) : nat := nth 0 (vs_index s) 0%nat.
  Definition vd_drv (P : CMAParams) : Drv VDS := {|
    d_step := vd_step P;
    d_post := fun _ s => ret s;
    d_pop := fun s => map (cma_un P) (vs_valid s);
    d_x := fun s => cma_un P (nth (vd_best s) (vs_valid s) []);
    d_fun := fun s => nth (vd_best s) (vs_fit s) n0;
    d_nfev := fun _ s => vs_nfev s;
    d_rec := vs_rec |}.

  (** vdcma/_vdcma.py:144-423 *)
  Definition vdcma (A : CMAArgs) : M OptRes :=
    let a := caa A in
    '(xmean, P0) <- cma_setup A ;;
    let d := cm_d P0 in
    z <- randn_vec d ;;
    let vvec := map (fun x => x / nsqrt (nN d)) z in
    '(nout, ilim) <- cma_alloc a ;;
    let P := mkCMAParams (cm_p P0) d (cm_mu P0) (cm_w P0) (cm_mueff P0) (cm_xm P0) (cm_xstd P0)
                         (cm_pen P0) (cm_maxiter P0) (cm_xtol P0) (cm_ftol P0) (cm_insigma P0)
                         ilim (cm_mode P0) nout in
    let nv2 := vdot vvec vvec in
    let nv := nsqrt nv2 in
    let vn := map (fun x => x / nv) vvec in
    let s := mkVDS xmean (e_empty d) (repeat n0 d) n0 (repeat n1 d) vvec nv2 nv vn (map nsq vn)
                   (repeat n0 d) false (caa_sigma A) (cma_init_pen d) 0
                   (repeat n0 (Z.to_nat (a_maxiter a))) [] [] []
                   (match nout with Some _ => Some ([], []) | None => None end) in
    drive (vd_drv P) (has_cb a) (fuel (a_maxiter a)) 0 s.

  (** vdcma/_vdcma.py:13-141 *)
  Definition vdcma_minimize (A : CMAArgs) : M OptRes := cma_check A ;;; vdcma A.
End VDCMA.
