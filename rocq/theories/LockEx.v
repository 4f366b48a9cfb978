(** C46 at work: a de run on two ranks with different generators, and runs of the other methods
    in which two ranks disagree. *)
From Coq Require Import Permutation Floats.
From Verif Require Import Base Num NumF Env Common DE CPSO NA Mat CMAES VDCMA Hoare Feas Vary Par
  Lock Demo ExPop ExCma ParEx.

(** The objective is [half].  Rank 0 of two: its Bcast delivers its own array, the Allreduce the
    values of the broadcast points. *)
Definition E46 : Env ND := DemoEnv DF f_half.
Definition Root : Env ND :=
  vary E46 (sched_rev DF) 0 2 (fun _ X => X) (fun _ X _ => map half X) (@e_empty ND E46).
(** Rank 1 gets what rank 0 got in the run with trace [t]. *)
Definition Rank (t : list (@event (FArith DF))) : Env ND :=
  vary E46 (sched_rev DF) 1 2 (fun n _ => nth n (@bcasts ND t) []) (fun n _ _ => nth n (@reduces ND t) [])
       (@e_empty ND E46).

Lemma perm_len n r : length (fst (@e_perm ND E46 n r)) = n.
Proof.
  cbn. unfold d_perm. destruct (sc_p r) as [|p t]; [apply seq_length|]. cbn.
  destruct (valid_perm n p) eqn:Hv; [|apply seq_length].
  apply valid_perm_ok in Hv. rewrite (Permutation_length Hv). apply seq_length.
Qed.
Lemma root_returns : Returns Root.
Proof.
  split; [intros x w; eexists; eexists; reflexivity|intros X st w; eexists; reflexivity|apply perm_len].
Qed.
Lemma rank_returns t : Returns (Rank t).
Proof.
  split; [intros x w; eexists; eexists; reflexivity|intros X st w; eexists; reflexivity|apply perm_len].
Qed.
Lemma rank_delivers t : Delivers (Rank t) t.
Proof. split; reflexivity. Qed.

(** no seed: the ranks start from different states *)
Definition args46 (mx : Z) (con : option string) : @Args ND :=
  @mkArgs ND true (b11 DF) None true mx 4 None 0x1p-20%float 0%float con 1 (Some "mpi"%string) true
          1%float CbFun.
Definition wa : Script * unit :=
  (mkScript [0.1; 0.2; 0.3; 0.4; 0.5; 0.6; 0.7; 0.8; 0.9; 0.25; 0.35; 0.45; 0.15; 0.05; 0.65; 0.75]%float
            [0.1; 0.5; -1; 0.7; 0.25; -0.3; 0.9; 0.4; -0.6; 0.7; -0.8]%float [[1; 0; 2]] [], tt).
Definition wb : Script * unit :=
  (mkScript [0.9; 0.1; 0.7; 0.4; 0.3; 0.2; 0.1; 0.35; 0.95; 0.85; 0.15; 0.55; 0.45; 0.65; 0.25]%float
            [0.9; 0.4; -0.6; 0.7; -0.8; 0.1; 0.5; -1; 0.7; 0.25; -0.3]%float [[2; 1; 0]] [1; 0; 1], tt).
(** the outcome and the trace *)
Definition root_run (m : forall E : Env ND, @M ND E (@OptRes ND)) (w : Script * unit) :=
  let '(r, s) := @exec ND Root _ (m Root) w None in (r, tr s).
Definition rank_run (m : forall E : Env ND, @M ND E (@OptRes ND)) (w w' : Script * unit) :=
  let t := snd (root_run m w) in
  let '(r, s) := @exec ND (Rank t) _ (m (Rank t)) w' None in (r, tr s).

Definition de46 : @DEArgs ND :=
  @mkDEArgs ND (args46 5 (Some "Random"%string)) 0.5%float 0.125%float "rand1bin" "deferred".

Lemma same_outcome :
  fst (root_run (fun E => de_minimize de46) wa) = fst (rank_run (fun E => de_minimize de46) wa wb).
Proof.
  assert (H : forall t, t = tr (snd (@exec ND Root _ (de_minimize de46) wa None)) ->
     fst (@exec ND Root _ (de_minimize de46) wa None) = fst (@exec ND (Rank t) _ (de_minimize de46) wb None)).
  { intros t Ht. apply is_outcome, C46_de.
    - reflexivity.
    - exact root_returns.
    - apply rank_returns.
    - rewrite <- Ht. apply rank_delivers. }
  unfold rank_run, root_run. cbv zeta. specialize (H _ eq_refl).
  destruct (@exec ND Root _ (de_minimize de46) wa None) as [r s]. cbn [fst snd] in *.
  destruct (@exec ND (Rank (tr s)) _ (de_minimize de46) wb None) as [r' s']. exact H.
Qed.

Lemma use3 (p q u : (@OptRes ND + Exn) * list (@event (FArith DF))) :
  fst p = fst q ->
  match p, q, u with
  | (inl r, s), (inl _, s'), (inl r', _) =>
      (r_nit r =? 5)%Z && (length (@bcasts ND s') =? 5)%nat &&
      (length (points s') =? 10)%nat && PrimFloat.ltb (r_fun r) (r_fun r')
  | _, _, _ => false end = true ->
  exists r s s' r' s'', p = (inl r, s) /\ q = (inl r, s') /\ u = (inl r', s'') /\
    r_nit r = 5%Z /\ length (@bcasts ND s') = 5 /\ length (points s') = 10 /\
    PrimFloat.ltb (r_fun r) (r_fun r') = true.
Proof.
  destruct p as [[r|e] s]; [|discriminate]. destruct q as [[r1|e] s']; [|discriminate].
  destruct u as [[r'|e] s'']; [|discriminate]. intros H K. injection H as <-.
  rewrite !andb_true_iff, Z.eqb_eq, !Nat.eqb_eq in K.
  destruct K as [[[K1 K2] K3] K4]. exists r, s, s', r', s''. auto 10.
Qed.

(** Both ranks return the same result after five iterations; on its own the second rank would
    have returned another one. *)
Theorem C46_hypotheses :
  a_backend (dea de46) = Some "mpi"%string /\ Returns Root /\
  (let t := snd (root_run (fun E => de_minimize de46) wa) in
   Returns (Rank t) /\ Delivers (Rank t) t) /\
  exists r s s' r' s'',
    root_run (fun E => de_minimize de46) wa = (inl r, s) /\
    rank_run (fun E => de_minimize de46) wa wb = (inl r, s') /\
    root_run (fun E => de_minimize de46) wb = (inl r', s'') /\
    r_nit r = 5%Z /\ length (bcasts s') = 5 /\ length (points s') = 10 /\
    PrimFloat.ltb (r_fun r) (r_fun r') = true.
Proof.
  split; [reflexivity|]. split; [apply root_returns|].
  split; [split; [apply rank_returns|apply rank_delivers]|].
  apply use3; [exact same_outcome|vm_compute; reflexivity].
Qed.

(** Rank 0 returns a point and its value; rank 1 returns the same value with a point where the
    objective has another one. *)
Definition disagree (m : forall E : Env ND, @M ND E (@OptRes ND)) : Prop :=
  exists r s r' s',
    root_run m wa = (inl r, s) /\ rank_run m wa wb = (inl r', s') /\
    PrimFloat.eqb (r_fun r) (half (r_x r)) = true /\
    PrimFloat.eqb (r_fun r') (r_fun r) = true /\ PrimFloat.eqb (r_fun r') (half (r_x r')) = false.
Lemma disagree_by (m : forall E : Env ND, @M ND E (@OptRes ND)) :
  match root_run m wa, rank_run m wa wb with
  | (inl r, s), (inl r', s') =>
      PrimFloat.eqb (r_fun r) (half (r_x r)) && PrimFloat.eqb (r_fun r') (r_fun r) &&
      negb (PrimFloat.eqb (r_fun r') (half (r_x r')))
  | _, _ => false end = true -> disagree m.
Proof.
  unfold disagree. generalize (root_run m wa), (rank_run m wa wb). intros p q.
  destruct p as [[r|e] s]; [|discriminate].
  destruct q as [[r'|e] s']; [|discriminate].
  rewrite !andb_true_iff, negb_true_iff. intros [[K1 K2] K3]. exists r, s, r', s'. auto.
Qed.

Definition pso46 : @PSOArgs ND := @mkPSOArgs ND (args46 3 None) 0%float 0%float 0%float "deferred".
Definition na46 : @NAArgs ND := @mkNAArgs ND (args46 3 None) 0.5%float.
Definition cma46 : @CMAArgs ND := @mkCMAArgs ND (args46 2 None) 0.25%float 0.5%float.

(** pso copies the initial points before the Bcast (cpso/_cpso.py:221); na, cmaes and vdcma
    broadcast the points in the units of the caller, a temporary array, and keep their own. *)
Theorem C46_others_disagree :
  disagree (fun E => pso_minimize pso46) /\ disagree (fun E => na_minimize na46) /\
  disagree (fun E => cmaes_minimize cma46) /\ disagree (fun E => vdcma_minimize cma46).
Proof.
  split; [|split; [|split]]; apply disagree_by; vm_compute; reflexivity.
Qed.

(** cmaes: rank 1 leaves the loop after the first iteration, rank 0 waits for it in the second. *)
Definition cma46s : @CMAArgs ND := @mkCMAArgs ND (args46 4 None) 1.2e-9%float 0.5%float.
Definition wl : Script * unit :=
  (mkScript [] (concat (repeat [1; -2; 2.5; 1.5; -1.25; 2; 1.75]%float 8)) [] [], tt).
Lemma use2 (p q : (@OptRes ND + Exn) * list (@event (FArith DF))) :
  match p, q with
  | (inl r, s), (inl r', s') =>
      (r_nit r =? 4)%Z && (length (@bcasts ND s) =? 4)%nat && (r_nit r' =? 1)%Z &&
      (r_status r' =? -2)%Z && (length (@bcasts ND s') =? 1)%nat
  | _, _ => false end = true ->
  exists r s r' s', p = (inl r, s) /\ q = (inl r', s') /\
    r_nit r = 4%Z /\ length (@bcasts ND s) = 4 /\
    r_nit r' = 1%Z /\ r_status r' = (-2)%Z /\ length (@bcasts ND s') = 1.
Proof.
  destruct p as [[r|e] s]; [|discriminate]. destruct q as [[r'|e] s']; [|discriminate]. intros K.
  rewrite !andb_true_iff, !Z.eqb_eq, !Nat.eqb_eq in K. destruct K as [[[[K1 K2] K3] K4] K5].
  exists r, s, r', s'. auto 10.
Qed.
Theorem C46_cmaes_leaves_early :
  exists r s r' s',
    root_run (fun E => cmaes_minimize cma46s) wl = (inl r, s) /\
    rank_run (fun E => cmaes_minimize cma46s) wl w0 = (inl r', s') /\
    r_nit r = 4%Z /\ length (bcasts s) = 4 /\
    r_nit r' = 1%Z /\ r_status r' = (-2)%Z /\ length (bcasts s') = 1.
Proof.
  apply use2. vm_compute. reflexivity.
Qed.
