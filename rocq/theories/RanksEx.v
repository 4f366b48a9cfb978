(** C67 at work: the six optimizers on two ranks. *)
From Coq Require Import Permutation Floats.
From Verif Require Import Base Num NumF Env Common DE CPSO NA Mat CMAES VDCMA Hoare Feas Vary Par
  Lock Seed Demo ExPop ExCma ParEx LockEx Ranks.

(** Rank 1 of two; its user code counts its evaluations. *)
Definition Peer (t : list (@event (FArith DF))) : Env ND :=
  peer Root nat (fun x w => (inl (half x), (fst w, S (snd w)))) (fun _ _ w => (None, w))
       (fun _ _ w => (None, w)) (fun n _ => seq 0 n) 1 2
       (fun n _ => nth n (@bcasts ND t) []) (fun n _ _ => nth n (@reduces ND t) []).

Lemma root_tame : Tame Root.
Proof. split; [intros x w; eexists; eexists; split; reflexivity|intros X st w; eexists; split; reflexivity]. Qed.
Lemma peer_tame t : Tame (Peer t).
Proof. split; [intros x w; eexists; eexists; split; reflexivity|intros X st w; eexists; split; reflexivity]. Qed.
Lemma peer_delivers t : Delivers (Peer t) t.
Proof. split; reflexivity. Qed.

Definition args67 (mx : Z) (sd : option Z) (con : option string) : @Args ND :=
  @mkArgs ND true (b11 DF) None true mx 4 sd 0x1p-20%float 0%float con 1 (Some "mpi"%string) true
          1%float CbFun.
Definition six (sd : option Z) : list (@OptCall ND) :=
  [@PDe ND (@mkDEArgs ND (args67 4 sd (Some "Random"%string)) 0.5%float 0.125%float "best1bin" "immediate");
   @PCpso ND (@mkCPSOArgs ND (args67 4 sd (Some "Shrink"%string)) 0.5%float 1%float 1%float (Some 1%float) "deferred");
   @PPso ND (@mkPSOArgs ND (args67 4 sd None) 0.5%float 1%float 1%float "deferred");
   @PNa ND (@mkNAArgs ND (args67 4 sd None) 0.5%float);
   @PCmaes ND (@mkCMAArgs ND (args67 4 sd (Some "Penalize"%string)) 0.25%float 0.5%float);
   @PVdcma ND (@mkCMAArgs ND (args67 4 sd None) 0.25%float 0.5%float)].

(** Both ranks return the same after at least two iterations, each having evaluated half of the points. *)
Definition together (c : @OptCall ND) (w : Script * unit) (g : Script) : Prop :=
  a_backend (opt_args c) = Some "mpi"%string /\
  (fst w = g \/ a_seed (opt_args c) <> None) /\
  exists r s s',
    @exec ND Root _ (opt_run c) w None = (inl r, s) /\
    Delivers (Peer (tr s)) (tr s) /\
    @exec ND (Peer (tr s)) _ (opt_run c) (g, 0) None = (inl r, s') /\
    (2 <= r_nit r)%Z /\
    Z.of_nat (length (points (tr s))) = (2 * r_nit r)%Z /\ Z.of_nat (snd (rs s')) = (2 * r_nit r)%Z.

Lemma together_by c w g :
  a_backend (opt_args c) = Some "mpi"%string ->
  (fst w = g \/ a_seed (opt_args c) <> None) ->
  match @exec ND Root _ (opt_run c) w None with
  | (inl r, s) => ((2 <=? r_nit r) && (Z.of_nat (length (points (tr s))) =? 2 * r_nit r))%Z &&
      (Z.of_nat (snd (rs (snd (@exec ND (Peer (tr s)) _ (opt_run c) (g, 0%nat) None)))) =? 2 * r_nit r)%Z
  | _ => false end = true ->
  together c w g.
Proof.
  intros HB HS H. split; [exact HB|]. split; [exact HS|].
  pose proof (fun t Hd => proj1 (C67_in_step Root nat (fun x w => (inl (half x), (fst w, S (snd w))))
    (fun _ _ w => (None, w)) (fun _ _ w => (None, w)) (fun n _ => seq 0 n) 1 2
    (fun n _ => nth n (@bcasts ND t) []) (fun n _ _ => nth n (@reduces ND t) [])
    c w (g, 0) None HB HS root_tame (peer_tame t) Hd)) as K.
  destruct (@exec ND Root _ (opt_run c) w None) as [[r|e] s] eqn:HE; [|discriminate].
  specialize (K (tr s) (peer_delivers (tr s))). fold (Peer (tr s)) in K. destruct K as [K _ _ _ _].
  cbn [fst snd] in K.
  destruct (@exec ND (Peer (tr s)) _ (opt_run c) (g, 0) None) as [q s'] eqn:HP.
  cbn [fst snd] in *. subst q. rewrite !andb_true_iff, !Z.eqb_eq, Z.leb_le in H. destruct H as [[L1 L2] L3].
  exists r, s, s'. repeat split; auto.
Qed.

Theorem C67_hypotheses :
  Tame Root /\ (forall t, Tame (Peer t)) /\
  Forall (fun c => together c wa (fst wa)) (six None) /\
  Forall (fun c => together c wa (fst wb)) (six (Some 7%Z)).
Proof.
  split; [apply root_tame|]. split; [apply peer_tame|].
  split; repeat (apply Forall_cons; [apply together_by; [reflexivity|auto; right; discriminate|vm_compute; reflexivity]|]); apply Forall_nil.
Qed.
