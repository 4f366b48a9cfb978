(** Runs of the population methods, computed by the kernel: the hypotheses of the theorems of
    PropPop.v and PropRec.v are met by real runs, and the claims that the code does not satisfy
    have counterexamples.  Binary64 arithmetic; de, pso and na runs hold for any C library. *)
From Coq Require Import Floats.
From Verif Require Import Base Num NumF Env Common DE CPSO NA Hoare EvalRules Gen Steps Hist Runs
  Best Inst HistFacts HistBest PropPop PropRec Demo.

(** A run that returns, and a boolean fact about it. *)
Lemma ran {N : Num} {E : Env N} {A} (m : M A) w a0 (P : A -> St -> bool) :
  match exec m w a0 with (inl r, s) => P r s | _ => false end = true ->
  exists r s, exec m w a0 = (inl r, s) /\ P r s = true.
Proof. destruct (exec m w a0) as [[r|e] s]; [|discriminate]. intros H; exists r, s; auto. Qed.

(** A run that raises. *)
Lemma raised {N : Num} {E : Env N} {A} (m : M A) w a0 e (P : St -> bool) :
  match exec m w a0 with (inr e', s) => match e, e' with
    | IndexError, IndexError | ValueError, ValueError | RecursionError, RecursionError
    | AttributeError, AttributeError | KeyError, KeyError | OverflowError, OverflowError | OutOfFuel, OutOfFuel
    | TypeError, TypeError | ZeroDivisionError, ZeroDivisionError
    | LinAlgError, LinAlgError => P s
    | UserError n, UserError k => Nat.eqb n k && P s
    | _, _ => false end | _ => false end = true ->
  exists s, exec m w a0 = (inr e, s) /\ P s = true.
Proof.
  destruct (exec m w a0) as [[r|e'] s]; [discriminate|].
  destruct e, e'; try discriminate; intros H; exists s; auto.
  apply andb_true_iff in H. destruct H as [H1 H2]. apply Nat.eqb_eq in H1. subst. auto.
Qed.

Definition f_sphere (x : list float) : float + nat :=
  inl (fold_left PrimFloat.add (map (fun v => PrimFloat.mul v v) x) 0%float).

Section ExPop.
  Variable F : FloatFuns.
  Notation NF := (FNum F).

  Definition b11 : @nd (@num_arith NF) := @D2 (FArith F) 2 [[-1; 1]; [-1; 1]]%float.

  Definition demo_args (x0 : option (@nd (@num_arith NF))) (mx pop : Z) (xtol ftol : float)
      (con : option string) (ra : bool) (verb : float) : @Args NF :=
    @mkArgs NF true b11 x0 true mx pop (Some 0%Z) xtol ftol con 1 None ra verb CbFun.

  Definition w0 : Script * unit := (noscript, tt).

  (** numeric initial values, as a boolean *)
  Definition init_num (c : @PopCall NF) (t : list (@event (FArith F))) : bool :=
    forallb (fun z => PrimFloat.leb (snd z) (snd z))
            (firstn (Z.to_nat (a_popsize (pop_args c))) (evals t)).
  Lemma init_num_ok c t : init_num c t = true -> @InitialNumeric NF c t.
  Proof.
    unfold init_num. rewrite forallb_forall. intros H. apply Forall_forall. exact H.
  Qed.
  Lemma no_comp_below c t : pop_comp c = false -> @BelowMarker NF c t.
  Proof. intros H H1. rewrite H in H1. discriminate. Qed.

  (** *** de, immediate updating, with recording *)
  Definition de_im : @PopCall NF :=
    CallDE (@mkDEArgs NF (demo_args None 5 4 0.0009765625%float 0.1015625%float (Some "Random"%string)
                                    true 1%float)
              0.5%float 0.125%float "rand1bin" "immediate").

  Definition drun (f : list float -> float + nat) (c : @PopCall NF) (w : Script * unit) a0 :=
    @exec NF (DemoEnv F f) _ (@pop_run NF (DemoEnv F f) c) w a0.
  Lemma dran f c w a0 P :
    match drun f c w a0 with (inl r, s) => P r s | _ => false end = true ->
    exists r s, drun f c w a0 = (inl r, s) /\ P r s = true.
  Proof. apply ran. Qed.

  (** Meets the hypotheses of C01_nit, C02, C03, C04_status, C05, C06, C18_shape, C19_de_rows, and
      is the counterexample of C08 and C19: the initial population already has a value <= ftol, the
      run goes on to maxiter and reports failure; row 1 of slice 1 of xall is an unchanged
      individual of value 0.28125 recorded with the value 0.90625 of the rejected trial. *)

  Theorem C08_ftol_reached_but_not_reported :
    exists res st', drun f_sphere de_im w0 None = (inl res, st') /\
      pop_sync de_im = false /\
      PrimFloat.leb (r_fun res) (a_ftol (pop_args de_im)) = true /\
      Exists (fun z => PrimFloat.leb (snd z) (a_ftol (pop_args de_im)) = true)
             (firstn 4 (evals (tr st'))) /\
      r_success res = false /\ r_status res = (-1)%Z /\ r_nit res = 5%Z.
  Proof.
    destruct (dran f_sphere de_im w0 None
      (fun res st => PrimFloat.leb (r_fun res) (a_ftol (pop_args de_im)) &&
         existsb (fun z => PrimFloat.leb (snd z) (a_ftol (pop_args de_im)))
             (firstn 4 (evals (tr st))) &&
         negb (r_success res) && Z.eqb (r_status res) (-1) && Z.eqb (r_nit res) 5))
      as (res & st & Hx & HP); [vm_compute; reflexivity|].
    rewrite !andb_true_iff, negb_true_iff, !Z.eqb_eq in HP.
    destruct HP as ((((H1 & H2) & H3) & H4) & H5).
    exists res, st. repeat split; auto. apply Exists_exists, existsb_exists. exact H2.
  Qed.

  Theorem C19_de_mismatch :
    exists res st' xs fs y, drun f_sphere de_im w0 None = (inl res, st') /\
      @not_mpi NF de_im /\ @InitialNumeric NF de_im (tr st') /\ @BelowMarker NF de_im (tr st') /\
      r_all res = Some (xs, fs) /\
      (* xall[1][1] is a point of objective value 0.28125, funall[1][1] is 0.90625 *)
      f_sphere (nth 1 (nth 1 xs []) []) = inl y /\ PrimFloat.eqb y 0.28125%float = true /\
      PrimFloat.eqb (nth 1 (nth 1 fs []) 0%float) 0.90625%float = true.
  Proof.
    destruct (dran f_sphere de_im w0 None
      (fun res st => init_num de_im (tr st) && match r_all res with
         | None => false
         | Some (xs, fs) => match f_sphere (nth 1 (nth 1 xs []) []) with
                            | inr _ => false
                            | inl y => PrimFloat.eqb y 0.28125%float &&
                                PrimFloat.eqb (nth 1 (nth 1 fs []) 0%float) 0.90625%float
                            end end))
      as (res & st & Hx & HP); [vm_compute; reflexivity|].
    apply andb_true_iff in HP. destruct HP as [H1 HP].
    destruct (r_all res) as [[xs fs]|] eqn:Hr; [|discriminate].
    destruct (f_sphere (nth 1 (nth 1 xs []) [])) as [y|] eqn:Hy; [|discriminate].
    apply andb_true_iff in HP. destruct HP as [H2 H3].
    exists res, st, xs, fs, y. split; [exact Hx|]. split; [discriminate|].
    split; [apply init_num_ok, H1|]. split; [apply no_comp_below; reflexivity|].
    repeat split; auto.
  Qed.

  (** *** de, deferred updating, from a caller's array *)
  Definition x0_mat : list (list float) :=
    [[-0.75; -0.5]; [0.5; 0.25]; [0.5; 0.5]; [-0.5; 0.75]]%float.
  Definition de_def : @PopCall NF :=
    CallDE (@mkDEArgs NF (demo_args (Some (@D2 (FArith F) 2 x0_mat)) 6 4 1%float 0.125%float
                                    (Some "Random"%string) true 0.5%float)
              0.5%float 0.125%float "rand1bin" "deferred").
  Definition w_def : Script * unit :=
    (mkScript [0.0625; 0.5; 0.0625; 0.03125; 0.75; 0.875; 0.0625; 0.5]%float []
              [[2; 1; 0]; [1; 0; 2]; [0; 1; 2]; [2; 0; 1]] [1; 0; 1; 1; 0], tt).

  Definition changed (b : option (list (list float))) (i j : nat) (v : float) : bool :=
    match b with Some m => PrimFloat.eqb (nth j (nth i m []) 0%float) v | None => false end.

  (** Meets the hypotheses of C04_xtol_deferred, C07 and C24_overwritten: the caller's array really
      changes (x0[1][0] was 0.5). *)
  Theorem C24_de_changes_x0 :
    exists res st', drun f_sphere de_def w_def (Some x0_mat) = (inl res, st') /\
      @not_mpi NF de_def /\ pop_sync de_def = true /\ pop_comp de_def = false /\
      r_status res = 0%Z /\ @InitialNumeric NF de_def (tr st') /\
      changed (Some x0_mat) 1 0 0.5%float = true /\
      changed (argbuf st') 1 0 (-0.25)%float = true.
  Proof.
    destruct (dran f_sphere de_def w_def (Some x0_mat)
      (fun res st => Z.eqb (r_status res) 0 && init_num de_def (tr st) &&
                     changed (argbuf st) 1 0 (-0.25)%float))
      as (res & st & Hx & HP); [vm_compute; reflexivity|].
    rewrite !andb_true_iff, Z.eqb_eq in HP. destruct HP as [[H1 H2] H3].
    exists res, st. split; [exact Hx|]. split; [discriminate|]. split; [reflexivity|].
    split; [reflexivity|]. split; [exact H1|]. split; [apply init_num_ok, H2|].
    split; [reflexivity|exact H3].
  Qed.

  (** *** pso *)
  Definition pso_im : @PopCall NF :=
    CallPSO (@mkPSOArgs NF (demo_args (Some (@D2 (FArith F) 2 x0_mat)) 6 4 1%float 0.28125%float
                                    (Some "Shrink"%string) true 0.75%float)
               0.75%float 1.5%float 1.5%float "immediate").
  Definition pso_def : @PopCall NF :=
    CallPSO (@mkPSOArgs NF (demo_args (Some (@D2 (FArith F) 2 x0_mat)) 3 4 1%float (-1)%float
                                    (Some "Shrink"%string) true 0.75%float)
               0.75%float 1.5%float 1.5%float "deferred").

  (** Meets the hypotheses of C08_immediate_stop, C04_xtol_immediate, C18_rows_pso, C24_overwritten. *)
  Example pso_im_run :
    exists res st', drun f_sphere pso_im w0 (Some x0_mat) = (inl res, st') /\
      @not_mpi NF pso_im /\ pop_sync pso_im = false /\
      r_status res = 0%Z /\ @InitialNumeric NF pso_im (tr st') /\ @BelowMarker NF pso_im (tr st') /\
      changed (argbuf st') 0 0 (-0.75)%float = false.
  Proof.
    destruct (dran f_sphere pso_im w0 (Some x0_mat)
      (fun res st => Z.eqb (r_status res) 0 && init_num pso_im (tr st) &&
                     negb (changed (argbuf st) 0 0 (-0.75)%float)))
      as (res & st & Hx & HP); [vm_compute; reflexivity|].
    rewrite !andb_true_iff, Z.eqb_eq, negb_true_iff in HP. destruct HP as [[H1 H2] H3].
    exists res, st. split; [exact Hx|]. split; [discriminate|]. split; [reflexivity|].
    split; [exact H1|]. split; [apply init_num_ok, H2|].
    split; [apply no_comp_below; reflexivity|exact H3].
  Qed.

  (** Meets the hypotheses of C24_unchanged and C18_rows_pso. *)
  Example pso_def_run :
    exists res st', drun f_sphere pso_def w0 (Some x0_mat) = (inl res, st') /\
      @not_mpi NF pso_def /\ pop_sync pso_def = true /\ r_status res = (-1)%Z /\
      (exists xs fs, r_all res = Some (xs, fs)).
  Proof.
    destruct (dran f_sphere pso_def w0 (Some x0_mat)
      (fun res st => Z.eqb (r_status res) (-1) && match r_all res with Some _ => true | _ => false end))
      as (res & st & Hx & HP); [vm_compute; reflexivity|].
    rewrite !andb_true_iff, Z.eqb_eq in HP. destruct HP as [H1 H2].
    destruct (r_all res) as [[xs fs]|] eqn:Hr; [|discriminate].
    exists res, st. split; [exact Hx|]. split; [discriminate|]. split; [reflexivity|].
    split; [exact H1|]. exists xs, fs. exact Hr.
  Qed.

  (** *** na *)
  Definition na_call : @PopCall NF :=
    CallNA (@mkNAArgs NF (@mkArgs NF true (@D2 (FArith F) 2 [[-2; 2]; [-2; 2]]%float)
              (Some (@D2 (FArith F) 2 x0_mat)) true 3 4 (Some 0%Z) 1%float (-1)%float None 1 None true
              1%float CbFun) 0.5%float).

  (** Meets the hypotheses of C19_na_rows and C24_unchanged; the first slice is not in the
      coordinates of the objective: x0[0][0] = -0.75 is recorded as 0.3125. *)
  Theorem C19_na_first_slice :
    exists res st' xs fs, drun f_sphere na_call w0 (Some x0_mat) = (inl res, st') /\
      @not_mpi NF na_call /\ r_all res = Some (xs, fs) /\
      PrimFloat.eqb (nth 0 (nth 0 x0_mat []) 0%float) (-0.75)%float = true /\
      PrimFloat.eqb (nth 0 (nth 0 (nth 0 xs []) []) 0%float) 0.3125%float = true.
  Proof.
    destruct (dran f_sphere na_call w0 (Some x0_mat)
      (fun res st => match r_all res with
         | Some (xs, _) => PrimFloat.eqb (nth 0 (nth 0 (nth 0 xs []) []) 0%float) 0.3125%float
         | _ => false end))
      as (res & st & Hx & HP); [vm_compute; reflexivity|].
    destruct (r_all res) as [[xs fs]|] eqn:Hr; [|discriminate].
    exists res, st, xs, fs. split; [exact Hx|]. split; [discriminate|]. split; [exact Hr|].
    split; [reflexivity|exact HP].
  Qed.

  (** *** NaN in the initial population (C09) *)
  Definition f_nan (x : list float) : float + nat :=
    if PrimFloat.leb 0.5%float (nth 0 x 0%float) then inl nan else f_sphere x.
  Theorem C09_run :
    exists res st', drun f_nan de_im w0 None = (inl res, st') /\ pop_comp de_im = false /\
      Exists (fun z => ~ @isnum (FArith F) (snd z))
             (firstn (Z.to_nat (a_popsize (pop_args de_im))) (evals (tr st'))) /\
      PrimFloat.eqb (r_fun res) (r_fun res) = false /\
      (exists x y, In (x, y) (evals (tr st')) /\ PrimFloat.ltb y 0.0625%float = true).
  Proof.
    destruct (dran f_nan de_im w0 None
      (fun res st => negb (PrimFloat.eqb (r_fun res) (r_fun res)) &&
         existsb (fun z => negb (PrimFloat.leb (snd z) (snd z))) (firstn 4 (evals (tr st))) &&
         existsb (fun z => PrimFloat.ltb (snd z) 0.0625%float) (evals (tr st))))
      as (res & st & Hx & HP); [vm_compute; reflexivity|].
    rewrite !andb_true_iff, negb_true_iff in HP. destruct HP as [[H1 H2] H3].
    exists res, st. split; [exact Hx|]. split; [reflexivity|]. split; [|split; [exact H1|]].
    - apply existsb_exists in H2. apply Exists_exists. destruct H2 as (z & Hz & H2).
      exists z. split; [exact Hz|]. intros Hn. apply negb_true_iff in H2.
      assert (H4 : true = false) by (rewrite <- H2; symmetry; exact Hn). discriminate.
    - apply existsb_exists in H3. destruct H3 as ([x y] & Hz & H3). exists x, y. auto.
  Qed.

  (** *** maxiter = 1 *)
  Definition de_one (ra : bool) : @PopCall NF :=
    CallDE (@mkDEArgs NF (demo_args None 1 4 1%float (-1)%float None ra 1%float)
              0.5%float 0.125%float "rand1bin" "immediate").
  Theorem C01_maxiter_one :
    exists res st', drun f_sphere (de_one false) w0 None = (inl res, st') /\
      a_maxiter (pop_args (de_one false)) = 1%Z /\ r_nit res = 2%Z.
  Proof.
    destruct (dran f_sphere (de_one false) w0 None (fun res _ => Z.eqb (r_nit res) 2))
      as (res & st & Hx & HP); [vm_compute; reflexivity|].
    apply Z.eqb_eq in HP. exists res, st. auto.
  Qed.
  Theorem C18_maxiter_one :
    exists st', drun f_sphere (de_one true) w0 None = (inr IndexError, st') /\
                Nat.eqb (ncalls (tr st')) 8 = true.
  Proof. apply raised. vm_compute. reflexivity. Qed.
End ExPop.

(** *** cpso with competition: the marker 1e30 (C17) *)
Definition f_inf (x : list float) : float + nat := inl infinity.
Definition cpso_inf : @PopCall (FNum DF) :=
  CallCPSO (@mkCPSOArgs (FNum DF)
    (demo_args DF (Some (@D2 (FArith DF) 2 [[0.5; 0.5]; [0.5; 0.5]; [0.5; 0.5]]%float)) 3 3
               (-1)%float (-1)%float None false 1%float)
    0.75%float 1.5%float 1.5%float (Some 2%float) "deferred").

(** Every evaluation returns inf, the result is 1e30, at a point that was never evaluated. *)
Theorem C17_marker_returned :
  exists res st', drun DF f_inf cpso_inf (mkScript (repeat 0.5%float 12 ++ [0.125]%float) [] [] [], tt)
                       None = (inl res, st') /\
    Forall (fun z => PrimFloat.eqb (snd z) infinity = true) (evals (tr st')) /\
    PrimFloat.eqb (r_fun res) (f_lit 1 30) = true /\
    Forall (fun z => PrimFloat.eqb (nth 0 (fst z) 0%float) (nth 0 (r_x res) 0%float) = false)
           (evals (tr st')).
Proof.
  destruct (dran DF f_inf cpso_inf (mkScript (repeat 0.5%float 12 ++ [0.125]%float) [] [] [], tt) None
    (fun res st => forallb (fun z => PrimFloat.eqb (snd z) infinity) (evals (tr st)) &&
       PrimFloat.eqb (r_fun res) (f_lit 1 30) &&
       forallb (fun z => negb (PrimFloat.eqb (nth 0 (fst z) 0%float) (nth 0 (r_x res) 0%float)))
           (evals (tr st))))
    as (res & st & Hx & HP); [vm_compute; reflexivity|].
  rewrite !andb_true_iff, !forallb_forall in HP. destruct HP as [[H1 H2] H3].
  exists res, st. split; [exact Hx|]. split; [apply Forall_forall, H1|]. split; [exact H2|].
  apply Forall_forall. intros z Hz. apply negb_true_iff, H3, Hz.
Qed.
