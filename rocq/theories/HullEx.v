(** C73: calls that meet the hypotheses, and a run with recombination < 1 that leaves the line of its
    initial population. *)
From Coq Require Import Reals Lra Floats.
From Verif Require Import Base Num NumR NumE NumF Env Common DE CPSO NA Hoare EvalRules Gen Steps Hist Runs
  Best Inst Laws Safe Feas FeasPso PlainEnv Valid Accept Enough Disc PropPop Calm FeasEx CalmEx Demo ExPop ExCma ExFeas
  FirstPop Trial Flight Replay ReplayEx Keeps Hull.
Open Scope R_scope.

(** ** de in exact arithmetic: six points of the line x + y = 1, on a grid of width 1/2, in the plane
    z = 3; all strategies and both modes, three generations *)
Definition hbox : list (list er) := [[Fin (-4); Fin 4]; [Fin (-4); Fin 4]; [Fin 0; Fin 5]].
Definition hrow (k : Z) : list er := [Fin (0 + 1/2 * IZR k); Fin (1 - 1/2 * IZR k); Fin 3].
Definition hx0 : @nd (@num_arith ENum) := @D2 EArith 3 (map hrow [0; 1; 2; -1; 4; -3]%Z).
Definition h_de (con : option string) (F : R) (s u : string) : @DEArgs ENum :=
  mkDEArgs (@mkArgs ENum true (@D2 EArith 2 hbox) (Some hx0) true 3 6 (Some 0%Z) (Fin 0) NaN con 1 None false (Fin 1) CbNone)
           (Fin F) (Fin 1) s u.

Lemma nit_all f (c : @PopCall ENum) : let E := EE f in forall w a0 res st',
  a_ftol (pop_args c) = NaN -> exec (pop_run c) w a0 = (inl res, st') -> (2 <= a_maxiter (pop_args c))%Z ->
  r_nit res = a_maxiter (pop_args c).
Proof.
  intros E w a0 res st' Hf Hx H2. pose proof (C01_nit_population c w a0 res st' (EE_OK _) Hx) as Hn.
  destruct (C04_status_population c w a0 res st' (EE_OK _) Hx) as (_ & Hs).
  assert (HN : forall v, nleb (Arith := @num_arith ENum) v (a_ftol (pop_args c)) = true -> False).
  { rewrite Hf. intros v Hv. change (er_leb v NaN = true) in Hv. destruct (v : er); discriminate. }
  destruct Hs as [(_ & _ & Hs)|[(_ & _ & Hs)|(_ & _ & Hs)]]; [destruct (HN _ Hs) .. |lia].
Qed.

Theorem C73_hypotheses con F m s u w a0 :
  In con [None; Some "Random"%string] -> F = IZR m -> (m = 0 \/ m = 1 \/ m = 2)%Z ->
  In s ["rand1bin"; "rand2bin"; "best1bin"; "best2bin"]%string -> In u ["immediate"; "deferred"]%string ->
  let E := EE (fun _ => Fin 1) in let A := h_de con F s u in
  a_bounds (dea A) = D2 2 hbox /\ (forall x, a_x0 (dea A) = Some x -> nd_wf x) /\
  a_backend (dea A) <> Some "mpi"%string /\
  exists res st', exec (de_minimize A) w a0 = (inl res, st') /\
    let l := evals (tr st') in
    length l = 18%nat /\
    Agree 2 3 (firstn 6 l) /\ Agree 2 3 l /\
    (con = None ->
      Forall (fun e => OnPlane 3 [1; 1; 0] 1 (fst e)) (firstn 6 l) /\
      Forall (fun e => OnPlane 3 [1; 1; 0] 1 (fst e)) l /\
      Forall (fun e => exists k, nth 0 (fst e) (Fin 0) = Fin (0 + 1/2 * IZR k)) (firstn 6 l) /\
      Forall (fun e => exists k, nth 0 (fst e) (Fin 0) = Fin (0 + 1/2 * IZR k)) l /\
      (m = 0%Z -> forall e, In e l -> exists e0, In e0 (firstn 6 l) /\ nth 0 (fst e) (Fin 0) = nth 0 (fst e0) (Fin 0))).
Proof.
  intros Hcon HF Hm Hs Hu E A.
  assert (Hwf : forall x, a_x0 (dea A) = Some x -> nd_wf x).
  { intros x Hx. injection Hx as <-. repeat constructor. }
  assert (Hmpi : a_backend (dea A) <> Some "mpi"%string) by discriminate.
  split; [reflexivity|]. split; [exact Hwf|]. split; [exact Hmpi|].
  destruct (C56_exact_returns (EE_OK (fun _ => Fin 1)) (CallDE A) w a0) as (res & st' & Hx).
  { split; [intros H; discriminate H|]. split; [|split; [|split; [|split]]].
    - constructor; [|split|split|exact Hs|exact Hu|exact Hcon].
      + constructor; try reflexivity; [|discriminate|discriminate].
        exists 3%nat. split; [exists hbox; split; reflexivity|]. exists (map hrow [0; 1; 2; -1; 4; -3]%Z). split; reflexivity.
      + subst F. cbn. unfold Rlit. cbn. rb. destruct Hm as [->|[->| ->]]; lra.
      + subst F. cbn. unfold Rlit. cbn. rb. destruct Hm as [->|[->| ->]]; lra.
      + cbn. unfold Rlit. cbn. rb. lra.
      + cbn. unfold Rlit. cbn. rb. lra.
    - unfold HasDim. cbn. lia.
    - intros _. reflexivity.
    - destruct Hs as [<-|[<-|[<-|[<-|[]]]]]; vm_compute; discriminate.
    - intros _. apply fin_range. repeat constructor; eexists; eexists; reflexivity. }
  { apply EE_no_raise. }
  exists res, st'. split; [exact Hx|]. intros l.
  pose proof (nit_all _ (CallDE A) w a0 res st' eq_refl Hx ltac:(cbn; lia)) as Hnit.
  destruct (C02_nfev_population (CallDE A) w a0 res st' (EE_OK _) Hmpi Hx) as (H1 & H2 & H3).
  assert (Hlen : length l = 18%nat).
  { cbn in Hnit. rewrite Hnit in H2. cbn in H2. change (length l = ncalls (tr st')) in H3. lia. }
  split; [exact Hlen|].
  assert (HP : forall Q : list er -> Prop, Forall Q (map hrow [0; 1; 2; -1; 4; -3]%Z) -> Forall (fun e => Q (fst e)) (firstn 6 l)).
  { intros Q HQ. exact (x0_evals (EE_OK _) (CallDE A) hx0 w a0 res st' Q Hmpi eq_refl I Hx HQ). }
  assert (HA : Agree 2 3 (firstn 6 l)). { apply (HP (fun x => nth 2 x (Fin 0) = Fin 3)). repeat constructor. }
  split; [exact HA|]. split.
  { refine (proj1 (C73_frozen_de (EE_OK _) A hbox w a0 res st' 2 3 eq_refl Hwf Hmpi _ _ Hx HA)); [cbn; lia|].
    intros _. cbn. rb. split; lra. }
  intros Hc.
  assert (HL : Forall (fun e => OnPlane 3 [1; 1; 0] 1 (fst e)) (firstn 6 l)).
  { apply (HP (OnPlane 3 [1; 1; 0] 1)). rewrite Forall_map, Forall_forall. intros k _.
    exists [0 + 1/2 * IZR k; 1 - 1/2 * IZR k; 3]. split; [reflexivity|]. split; [reflexivity|]. cbn. lra. }
  assert (HG : Forall (fun e => exists k, nth 0 (fst e) (Fin 0) = Fin (0 + 1/2 * IZR k)) (firstn 6 l)).
  { apply (HP (fun x => exists k, nth 0 x (Fin 0) = Fin (0 + 1/2 * IZR k))). rewrite Forall_map, Forall_forall. intros k _.
    exists k. reflexivity. }
  split; [exact HL|].
  split; [exact (proj1 (C73_hull (EE_OK _) A hbox w a0 res st' _ _ eq_refl Hwf Hmpi Hc eq_refl Hx HL))|].
  split; [exact HG|].
  split; [exact (C73_grid (EE_OK _) A hbox w a0 res st' 0 0 (1/2) m eq_refl Hwf Hmpi Hc (f_equal Fin HF) ltac:(cbn; lia) Hx HG)|].
  intros Hm0. assert (HF0 : dea_mutation A = Fin 0) by (cbn; subst F m; reflexivity).
  refine (C73_recombination (EE_OK _) A hbox w a0 res st' 0 eq_refl Hwf Hmpi Hc HF0 ltac:(cbn; lia) Hx _).
  apply (HP (fun x => isfin (nth 0 x (Fin 0)))). repeat constructor.
Qed.

(** ** pso: with the swarm of C69 the second coordinate stays 0 *)
Theorem C73_hypotheses_pso u w a0 : In u ["immediate"; "deferred"]%string ->
  let E := EE (fun _ => Fin 1) in let A := r_args u (Some ex0) in
  exists res st', exec (pso_minimize A) w a0 = (inl res, st') /\ length (evals (tr st')) = 12%nat /\
    Agree 1 0 (firstn 4 (evals (tr st'))) /\ Agree 1 0 (evals (tr st')).
Proof.
  intros Hu E A.
  destruct (C69_hypotheses u (Some ex0) w a0 Hu (or_introl eq_refl)) as (Hb & Hc & HF & H0 & Hm & _ & res & st' & Hx & Hlen & _).
  fold A in Hb, Hc, H0, Hm. exists res, st'. split; [exact Hx|]. split; [exact Hlen|].
  assert (HA : Agree 1 0 (firstn 4 (evals (tr st')))).
  { refine (x0_evals (EE_OK _) (CallPSO A) ex0 w a0 res st' (fun x => nth 1 x (Fin 0) = Fin 0) Hm eq_refl I Hx _). repeat constructor. }
  split; [exact HA|].
  refine (proj1 (C73_frozen_pso (EE_OK _) A ebox w a0 res st' 1 0 Hb (fun x h => proj1 (H0 x h)) Hm _ _ Hx HA)); [cbn; lia|].
  intros _. split; [exact Hc|]. split; [exact HF|]. intros x h. exact (proj2 (H0 x h)).
Qed.

(** ** Binary64: the diagonal of the square is left when recombination is 1/2 *)
Definition de_diag (cr : float) : @PopCall ND :=
  CallDE (@mkDEArgs ND (@mkArgs ND true (@D2 (FArith DF) 2 [[-1; 1]; [-1; 1]]%float)
     (Some (@D2 (FArith DF) 2 [[0; 0]; [0.5; 0.5]; [1; 1]; [-1; -1]]%float)) true 3 4 None
     0x1p-30%float (-1)%float None 1 None false 1%float CbFun) 0.5%float cr "rand1bin" "deferred").
Definition w_diag : Script * unit := (mkScript (repeat 0.75%float 64) [] [] [], tt).
Definition on_diag (x : list float) : bool := PrimFloat.eqb (nth 0 x 0%float) (nth 1 x 0%float).
Theorem C73_needs_recombination :
  (exists res st', drun DF f_sum (de_diag 0.5) w_diag None = (inl res, st') /\
    Exists (fun x => on_diag x = false) (points (tr st'))) /\
  (exists res st', drun DF f_sum (de_diag 1) w_diag None = (inl res, st') /\
    Forall (fun x => on_diag x = true) (points (tr st'))).
Proof.
  split.
  - destruct (dran DF f_sum (de_diag 0.5) w_diag None (fun _ st => existsb (fun x => negb (on_diag x)) (points (tr st))))
      as (r & s & Hx & HP); [vm_compute; reflexivity|].
    exists r, s. split; [exact Hx|]. apply Exists_exists. apply existsb_exists in HP. destruct HP as (x & H1 & H2).
    exists x. split; [exact H1|]. apply negb_true_iff, H2.
  - destruct (dran DF f_sum (de_diag 1) w_diag None (fun _ st => forallb on_diag (points (tr st))))
      as (r & s & Hx & HP); [vm_compute; reflexivity|].
    exists r, s. split; [exact Hx|]. apply Forall_forall. intros x Hin. rewrite forallb_forall in HP. apply HP, Hin.
Qed.
