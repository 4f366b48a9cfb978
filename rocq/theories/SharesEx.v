(** C76 at work: the six optimizers on three ranks with four points per iteration. *)
From Coq Require Import Permutation Floats.
From Verif Require Import Base Num NumF Env Common DE CPSO NA Mat CMAES VDCMA Hoare EvalRules Inst
  Feas Vary Par Lock Seed Demo ExPop ExCma ParEx LockEx Ranks RanksEx PropPop PropCma Shares.

(** Rank [k] of three.  The ranks are in the same state, so Bcast leaves the points as they are; the
    sum of the contributions is the vector of the values. *)
Definition Third (k : nat) : Env ND :=
  vary E46 (sched_rev DF) k 3 (fun _ X => X)
       (fun _ X f => if (length X =? length f)%nat then map half X else f) (@e_empty ND E46).

Lemma third_ok k : @EnvOK ND (Third k).
Proof.
  destruct (DemoEnv_OK DF f_half) as [H1 [H2 H3] H4 H5 H6 H7].
  constructor; auto.
  - split; [reflexivity|]. intros n X f. cbn.
    match goal with |- context [if ?b then _ else _] => destruct b eqn:H end; [|reflexivity].
    apply Nat.eqb_eq in H. etransitivity; [apply map_length|exact H].
Qed.

Definition dummy {N : Num} : OptRes :=
  {| r_x := []; r_success := false; r_status := 0; r_message := ""; r_fun := n0; r_nfev := 0;
     r_nit := 0; r_all := None |}.

Definition third (c : @OptCall ND) k := @exec ND (Third k) _ (opt_run c) wa None.
Definition numeric (f : list float) : bool := forallb (fun y => PrimFloat.leb y y) f.

(** All three ranks return after the same number of iterations, having evaluated 2, 1 and 1 points
    in each of them; all values received by the population methods are numbers. *)
Definition thirds (c : @OptCall ND) : Prop :=
  a_backend (opt_args c) = Some "mpi"%string /\
  exists (n : Z) res (st : forall k, @St ND (Third k)),
    (2 <= n)%Z /\
    (forall k, (k < 3)%nat -> @EnvOK ND (Third k) /\ @e_rank ND (Third k) = k /\
       @e_mpisize ND (Third k) = 3%nat /\
       @exec ND (Third k) _ (opt_run c) wa None = (inl (res k), st k) /\ r_nit (res k) = n /\
       r_nfev (res k) = (4 * n)%Z /\
       Z.of_nat (ncalls (tr (st k))) = (n * (if (k =? 0)%nat then 2 else 1))%Z /\
       (match opt_pop c with inl _ => True | inr _ => False end ->
        Forall (Forall (fun y : float => PrimFloat.leb y y = true)) (reduces (tr (st k))))).

Definition check (c : @OptCall ND) (n : Z) (k : nat) : bool :=
  match third c k with
  | (inl r, s) => (r_nit r =? n)%Z && (r_nfev r =? 4 * n)%Z &&
      (Z.of_nat (ncalls (tr s)) =? n * (if (k =? 0)%nat then 2 else 1))%Z &&
      match opt_pop c with inl _ => forallb numeric (reduces (tr s)) | inr _ => true end
  | _ => false
  end.

Lemma thirds_by c n : a_backend (opt_args c) = Some "mpi"%string -> (2 <= n)%Z ->
  check c n 0 = true -> check c n 1 = true -> check c n 2 = true -> thirds c.
Proof.
  intros HB Hn C0 C1 C2. split; [exact HB|].
  assert (C : forall k, (k < 3)%nat -> check c n k = true).
  { intros [|[|[|k]]] Hk; auto. lia. }
  clear C0 C1 C2.
  exists n, (fun k => match fst (third c k) with inl r => r | inr _ =>
               dummy end), (fun k => snd (third c k)).
  split; [exact Hn|]. intros k Hk. specialize (C k Hk). unfold check in C.
  split; [apply third_ok|]. split; [reflexivity|]. split; [reflexivity|].
  change (@exec ND (Third k) _ (opt_run c) wa None) with (third c k).
  destruct (third c k) as [[r|e] s]; [|discriminate]. cbn [fst snd].
  rewrite !andb_true_iff, !Z.eqb_eq in C. destruct C as [[[C1 C2] C3] C4].
  split; [reflexivity|]. split; [exact C1|]. split; [exact C2|]. split; [exact C3|].
  intros Hp. destruct (opt_pop c); [|contradiction].
  rewrite forallb_forall in C4. apply Forall_forall. intros f Hf. specialize (C4 f Hf).
  unfold numeric in C4. rewrite forallb_forall in C4. apply Forall_forall, C4.
Qed.

Theorem C76_hypotheses : Forall thirds (six (Some 7%Z)).
Proof.
  apply Forall_cons; [eapply (thirds_by _ 2%Z); [reflexivity|lia|vm_compute; reflexivity..]|].
  repeat (apply Forall_cons; [eapply (thirds_by _ 4%Z); [reflexivity|lia|vm_compute; reflexivity..]|]).
  apply Forall_nil.
Qed.
