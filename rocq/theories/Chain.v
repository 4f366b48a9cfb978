(** Trajectories of the samplers: an abstract chain, and the runs of mcmc and hmc as chains. *)
From Verif Require Import Base Num Env Common DE Sample Hoare EvalRules Steps Best Inst.

Section Traj.
  Context {N : Num} {E : Env N}.

  Definition lastx (X : matrix) : vec := nth (length X - 1) X [].
  Definition lastf (F : vec) : T := nth (length F - 1) F n0.

  (** What one step looks like: samples and decisions so far, proposal, its value, accepted?,
      events of the step. *)
  Definition StepRel := matrix -> vec -> list bool -> vec -> T -> bool -> list event -> Prop.

  (** [Traj R x0 f0 t0 X F acc t]: a chain that starts at [x0] with value [f0]; step k proposes y
      with value fy and accepts it or not ([acc]); [R X F acc y fy b evs] says what a step from the
      samples [X], [F] looks like. *)
  Inductive Traj (R : StepRel)
      (x0 : vec) (f0 : T) (t0 : list event) : matrix -> vec -> list bool -> list event -> Prop :=
  | Traj0 : Traj R x0 f0 t0 [x0] [f0] [] t0
  | TrajS X F acc t y fy b evs :
      Traj R x0 f0 t0 X F acc t -> R X F acc y fy b evs ->
      Traj R x0 f0 t0 (X ++ [if b then y else lastx X]) (F ++ [if b then fy else lastf F])
           (acc ++ [b]) (t ++ evs).

  Definition nacc (acc : list bool) : nat := length (filter (fun b => b) acc).

  Lemma nacc_snoc acc b : nacc (acc ++ [b]) = nacc acc + (if b then 1 else 0).
  Proof. unfold nacc. rewrite filter_app, app_length. destruct b; reflexivity. Qed.

  Lemma Traj_len (R : StepRel) x0 f0 t0 X F acc t : Traj R x0 f0 t0 X F acc t ->
    length X = S (length acc) /\ length F = S (length acc).
  Proof. induction 1 as [|X F acc t y fy b evs _ [H1 H2] _]; cbn; auto. rewrite !app_length; cbn; lia. Qed.

  Lemma Traj_first (R : StepRel) x0 f0 t0 X F acc t : Traj R x0 f0 t0 X F acc t ->
    nth 0 X [] = x0 /\ nth 0 F n0 = f0.
  Proof.
    induction 1 as [|X F acc t y fy b evs HT IH HR]; cbn; auto.
    apply Traj_len in HT. rewrite !app_nth1 by lia. exact IH.
  Qed.

  (** The k-th step, read off the final lists. *)
  Lemma Traj_step (R : StepRel) x0 f0 t0 X F acc t : Traj R x0 f0 t0 X F acc t ->
    forall k, k < length acc ->
    exists X' F' acc' t' y fy b evs t'',
      Traj R x0 f0 t0 X' F' acc' t' /\ R X' F' acc' y fy b evs /\
      X' = firstn (S k) X /\ F' = firstn (S k) F /\ acc' = firstn k acc /\ length acc' = k /\
      nth k acc false = b /\
      nth k X [] = lastx X' /\ nth k F n0 = lastf F' /\
      nth (S k) X [] = (if b then y else nth k X []) /\
      nth (S k) F n0 = (if b then fy else nth k F n0) /\
      t = t' ++ evs ++ t''.
  Proof.
    induction 1 as [|X F acc t y fy b evs HT IH HR]; intros k Hk; cbn in Hk; [lia|].
    pose proof (Traj_len _ _ _ _ _ _ _ _ HT) as [HlX HlF].
    rewrite app_length in Hk; cbn in Hk.
    destruct (Nat.eq_dec k (length acc)) as [->|Hne].
    - exists X, F, acc, t, y, fy, b, evs, [].
      rewrite !firstn_app, (firstn_all2 X), (firstn_all2 F), (firstn_all2 acc) by lia.
      replace (S (length acc) - length X) with 0 by lia.
      replace (S (length acc) - length F) with 0 by lia.
      rewrite Nat.sub_diag, !firstn_O, !app_nil_r.
      repeat split; auto.
      + rewrite app_nth2, Nat.sub_diag by lia; reflexivity.
      + rewrite app_nth1 by lia. unfold lastx. f_equal; lia.
      + rewrite app_nth1 by lia. unfold lastf. f_equal; lia.
      + rewrite (app_nth2 X) by lia. replace (S (length acc) - length X) with 0 by lia. cbn [nth].
        rewrite app_nth1 by lia. destruct b; auto. unfold lastx. f_equal; lia.
      + rewrite (app_nth2 F) by lia. replace (S (length acc) - length F) with 0 by lia. cbn [nth].
        rewrite app_nth1 by lia. destruct b; auto. unfold lastf. f_equal; lia.
    - destruct (IH k ltac:(lia)) as (X' & F' & acc' & t' & y' & fy' & b' & evs' & t'' & H1 & H2 & H3
        & H4 & H5 & H6 & H7 & H8 & H9 & H10 & H11 & H12).
      exists X', F', acc', t', y', fy', b', evs', (t'' ++ evs).
      rewrite !firstn_app.
      replace (S k - length X) with 0 by lia. replace (S k - length F) with 0 by lia.
      replace (k - length acc) with 0 by lia. rewrite !firstn_O, !app_nil_r.
      rewrite !app_nth1 by lia.
      repeat split; auto. rewrite H12, <- !app_assoc. reflexivity.
  Qed.

  (** ** The best accepted sample *)
  Record BestAcc (X : matrix) (F : vec) (acc : list bool) (imin : nat) (fmin : T) : Prop := {
    ba_case :
      (imin = 0 /\ fmin = ninf) \/
      (exists k, imin = S k /\ nth k acc false = true /\ nth (S k) F n0 = fmin /\
                 nltb fmin ninf = true /\
                 forall j, j < k -> nth j acc false = true -> nleb (nth (S j) F n0) fmin = false);
    ba_min : forall k, nth k acc false = true -> nltb (nth (S k) F n0) fmin = false }.

  Lemma nth_snoc_false (acc : list bool) b k :
    nth k (acc ++ [b]) false = true ->
    (k < length acc /\ nth k acc false = true) \/ (k = length acc /\ b = true).
  Proof.
    intros H. destruct (Nat.lt_trichotomy k (length acc)) as [Hk|[Hk|Hk]].
    - rewrite app_nth1 in H by lia. auto.
    - subst k. rewrite app_nth2, Nat.sub_diag in H by lia. auto.
    - rewrite nth_overflow in H; [discriminate|]. rewrite app_length; cbn; lia.
  Qed.
  Lemma nth_snoc_lt {A} (l : list A) a d k : k < length l -> nth k (l ++ [a]) d = nth k l d.
  Proof. intros; apply app_nth1; auto. Qed.
  Lemma nth_snoc_eq {A} (l : list A) a d k : k = length l -> nth k (l ++ [a]) d = a.
  Proof. intros ->. rewrite app_nth2, Nat.sub_diag; auto. Qed.

  Lemma BestAcc_reject X F acc imin fmin x f :
    length F = S (length acc) -> BestAcc X F acc imin fmin ->
    BestAcc (X ++ [x]) (F ++ [f]) (acc ++ [false]) imin fmin.
  Proof.
    intros Hl [H1 H2].
    assert (Hlt : forall k, nth k acc false = true -> k < length acc).
    { intros k Hk. destruct (Nat.lt_ge_cases k (length acc)); auto.
      rewrite nth_overflow in Hk by lia. discriminate. }
    constructor.
    - destruct H1 as [H1|(k & H3 & H4 & H5 & H6 & H7)]; [left; exact H1|]. right. exists k.
      pose proof (Hlt _ H4) as Hk. rewrite !nth_snoc_lt by lia. repeat split; auto.
      intros j Hj Ha. rewrite nth_snoc_lt in Ha by lia. rewrite nth_snoc_lt by lia. auto.
    - intros k Hk. apply nth_snoc_false in Hk. destruct Hk as [[Hk Ha]|[_ Hb]]; [|discriminate].
      rewrite nth_snoc_lt by lia. auto.
  Qed.

  Lemma BestAcc_accept {L : OrdLaws num_arith} X F acc imin fmin x f :
    length X = S (length acc) -> length F = S (length acc) -> BestAcc X F acc imin fmin ->
    BestAcc (X ++ [x]) (F ++ [f]) (acc ++ [true])
            (if nltb f fmin then length X else imin) (if nltb f fmin then f else fmin).
  Proof.
    intros HlX Hl [H1 H2].
    assert (Hlt : forall k, nth k acc false = true -> k < length acc).
    { intros k Hk. destruct (Nat.lt_ge_cases k (length acc)); auto.
      rewrite nth_overflow in Hk by lia. discriminate. }
    destruct (nltb f fmin) eqn:Hf; constructor.
    - right. exists (length acc). rewrite HlX.
      rewrite (nth_snoc_eq acc) by reflexivity. rewrite (nth_snoc_eq F) by lia.
      repeat split; auto.
      + destruct H1 as [[_ ->]|(k & _ & _ & _ & H6 & _)]; auto. eapply lt_trans; eassumption.
      + intros j Hj Ha. rewrite nth_snoc_lt in Ha by lia. rewrite nth_snoc_lt by lia.
        specialize (H2 j Ha). destruct (nleb (nth (S j) F n0) f) eqn:Hle; auto.
        rewrite (le_lt_trans _ _ _ Hle Hf) in H2. discriminate.
    - intros k Hk. apply nth_snoc_false in Hk. destruct Hk as [[Hk Ha]|[-> _]].
      + rewrite nth_snoc_lt by lia. specialize (H2 k Ha).
        destruct (nltb (nth (S k) F n0) f) eqn:Hlt'; auto.
        rewrite (lt_trans _ _ _ Hlt' Hf) in H2. discriminate.
      + rewrite nth_snoc_eq by lia. apply lt_irrefl.
    - destruct H1 as [H1|(k & H3 & H4 & H5 & H6 & H7)]; [left; exact H1|]. right. exists k.
      pose proof (Hlt _ H4) as Hk. rewrite !nth_snoc_lt by lia. repeat split; auto.
      intros j Hj Ha. rewrite nth_snoc_lt in Ha by lia. rewrite nth_snoc_lt by lia. auto.
    - intros k Hk. apply nth_snoc_false in Hk. destruct Hk as [[Hk Ha]|[-> _]].
      + rewrite nth_snoc_lt by lia. auto.
      + rewrite nth_snoc_eq by lia. exact Hf.
  Qed.

  (** ** The model's chain record and the trajectory *)
  Record Rep (R : StepRel) x0 f0 t0 (c : Chain) (acc : list bool) (t : list event) : Prop := {
    rp_traj : Traj R x0 f0 t0 (ch_x c) (ch_f c) acc t;
    rp_acc : ch_acc c = Z.of_nat (nacc acc);
    rp_best : BestAcc (ch_x c) (ch_f c) acc (ch_imin c) (ch_fmin c) }.

  Lemma Rep_init (R : StepRel) x f t0 : Rep R x f t0 (mkChain [x] [f] 0 0 ninf) [] t0.
  Proof.
    constructor; cbn; [constructor|reflexivity|]. constructor; [left; auto|].
    intros [|k] H; discriminate.
  Qed.

  (** the callback event of a sampler after a step *)
  Definition scbe (a : SArgs) (X : matrix) (F : vec) (acc : list bool) (imin : nat) : list event :=
    if s_has_cb a then
      [ESCb (lastx X)
        {| scb_x := nth imin X []; scb_fun := nth imin F n0; scb_nit := Z.of_nat (length X);
           scb_accept := ndiv (nZ (Z.of_nat (nacc acc))) (nN (length X));
           scb_all := if s_return_all a
                      then Some (firstn (length X - 1) X, firstn (length X - 1) F) else None |}
        None]
    else [].
  Definition scbe0 (a : SArgs) (x : vec) (f : T) : list event :=
    if s_has_cb a then
      [ESCb x {| scb_x := x; scb_fun := f; scb_nit := 1; scb_accept := n1;
                 scb_all := if s_return_all a then Some ([x], [f]) else None |} None]
    else [].

  Definition israndn (z : T) : Prop := exists r, z = fst (e_randn r).

  Lemma quiet_randn_vec' d : quiet (randn_vec d) (fun z : vec => length z = d /\ Forall israndn z).
  Proof. apply quiet_replicateM. apply quiet_draw. intros r; exists r; reflexivity. Qed.

  (** quiet and never raising *)
  Definition quietT {A} (m : M A) (Q : A -> Prop) : Prop :=
    forall s, wp m (fun a s' => tr s' = tr s /\ argbuf s' = argbuf s /\ Q a) (fun _ _ => False) s.
  Lemma quietT_ret {A} (a : A) (Q : A -> Prop) : Q a -> quietT (ret a) Q.
  Proof. intros H s; apply wp_ret; auto. Qed.
  Lemma quietT_bind {A B} (m : M A) (k : A -> M B) Q R :
    quietT m Q -> (forall a, Q a -> quietT (k a) R) -> quietT (bind m k) R.
  Proof.
    intros H1 H2 s. apply wp_bind. eapply wp_conseq; [apply H1| |tauto].
    intros a s' (Ht & Hb & Ha). eapply wp_conseq; [apply (H2 a Ha)| |tauto]; cbn.
    intros b s'' (Ht' & Hb' & Hb''). rewrite Ht', Hb'; auto.
  Qed.
  Lemma quietT_draw {A} (f : RNG -> A * RNG) (Q : A -> Prop) :
    (forall r, Q (fst (f r))) -> quietT (draw f) Q.
  Proof.
    intros H s. unfold wp, draw. specialize (H (fst (rs s))).
    destruct (f (fst (rs s))) as [a r]; cbn in *; auto.
  Qed.
  Lemma quietT_replicateM {A} n (m : M A) (Q : A -> Prop) :
    quietT m Q -> quietT (replicateM n m) (fun l => length l = n /\ Forall Q l).
  Proof.
    intros H; induction n as [|n IH]; cbn.
    - apply quietT_ret; auto.
    - eapply quietT_bind; [exact H|]; intros a Ha.
      eapply quietT_bind; [exact IH|]; intros l [Hl HF]. apply quietT_ret; split; cbn; auto.
  Qed.
  Lemma quietT_rand : quietT rand isrand.
  Proof. apply quietT_draw. intros r; exists r; reflexivity. Qed.
  Lemma quietT_randn_vec d : quietT (randn_vec d) (fun z : vec => length z = d /\ Forall israndn z).
  Proof. apply quietT_replicateM. apply quietT_draw. intros r; exists r; reflexivity. Qed.
  Lemma wp_quietT {A B} (m : M A) (k : A -> M B) Q (R : B -> St -> Prop) (X : Exn -> St -> Prop) s :
    quietT m Q ->
    (forall a s', tr s' = tr s -> argbuf s' = argbuf s -> Q a -> wp (k a) R X s') ->
    wp (bind m k) R X s.
  Proof.
    intros H1 H2. apply wp_bind. eapply wp_conseq; [apply H1| |]; cbn.
    - intros a s' (? & ? & ?); apply H2; auto.
    - tauto.
  Qed.

  Lemma wp_s_cb a (c : Chain) acc (Xc : Exn -> St -> Prop) (Q : unit -> St -> Prop) s :
    ch_acc c = Z.of_nat (nacc acc) ->
    (forall s', tr s' = tr s ++ scbe a (ch_x c) (ch_f c) acc (ch_imin c) -> argbuf s' = argbuf s ->
                Q tt s') ->
    (forall n s', Xc (UserError n) s') ->
    wp (s_cb a c) Q Xc s.
  Proof.
    intros Ha HQ HX. unfold s_cb. cbn zeta. apply wp_when; intros Hc.
    - apply wp_call_scb; [|auto]. intros w _. apply HQ; cbn; auto. unfold scbe, lastx.
      rewrite Hc, Ha. reflexivity.
    - apply HQ; auto. unfold scbe. rewrite Hc, app_nil_r. reflexivity.
  Qed.

  Lemma rep_accept {L : OrdLaws num_arith} (R : StepRel) x0 f0 t0 c acc t y fy evs :
    Rep R x0 f0 t0 c acc t ->
    R (ch_x c) (ch_f c) acc y fy true evs -> Rep R x0 f0 t0 (ch_accept c y fy) (acc ++ [true]) (t ++ evs).
  Proof.
    intros [H1 H2 H3] HR. pose proof (Traj_len _ _ _ _ _ _ _ _ H1) as [Hx Hf].
    unfold ch_accept.
    pose proof (BestAcc_accept _ _ _ _ _ y fy Hx Hf H3) as HB.
    destruct (nltb fy (ch_fmin c)); constructor; cbn [ch_x ch_f ch_acc ch_imin ch_fmin]; auto;
      try (exact (TrajS _ _ _ _ _ _ _ _ y fy true evs H1 HR));
      rewrite nacc_snoc, H2; lia.
  Qed.
  Lemma rep_reject (R : StepRel) x0 f0 t0 c acc t y fy evs :
    Rep R x0 f0 t0 c acc t ->
    R (ch_x c) (ch_f c) acc y fy false evs -> Rep R x0 f0 t0 (ch_reject c) (acc ++ [false]) (t ++ evs).
  Proof.
    intros [H1 H2 H3] HR. pose proof (Traj_len _ _ _ _ _ _ _ _ H1) as [Hx Hf].
    unfold ch_reject. constructor; cbn [ch_x ch_f ch_acc ch_imin ch_fmin].
    - exact (TrajS _ _ _ _ _ _ _ _ y fy false evs H1 HR).
    - rewrite nacc_snoc, H2. lia.
    - apply BestAcc_reject; auto.
  Qed.

  (** Evaluations of the chain really happened. *)
  Lemma Traj_evals (R : StepRel) x0 f0 t0 X F acc t :
    (forall X F acc y fy evs, R X F acc y fy true evs -> In (y, fy) (evals evs)) ->
    In (x0, f0) (evals t0) ->
    Traj R x0 f0 t0 X F acc t -> forall k, k < length X -> In (nth k X [], nth k F n0) (evals t).
  Proof.
    intros HR H0. induction 1 as [|X F acc t y fy b evs HT IH Hs]; intros k Hk; cbn in Hk.
    - destruct k; [exact H0|lia].
    - pose proof (Traj_len _ _ _ _ _ _ _ _ HT) as [HlX HlF]. rewrite app_length in Hk; cbn in Hk.
      rewrite evals_app, in_app_iff.
      destruct (Nat.eq_dec k (length X)) as [->|Hne].
      + rewrite (nth_snoc_eq X), (nth_snoc_eq F) by lia. destruct b.
        * right. eapply HR; eauto.
        * left. unfold lastx, lastf. replace (length F) with (length X) by lia. apply IH. lia.
      + rewrite !nth_snoc_lt by lia. left. apply IH. lia.
  Qed.
End Traj.
