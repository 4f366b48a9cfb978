(** C50: without a callback a sampler does nothing that can be seen but evaluate the objective, also when
    the run raises. *)
From Verif Require Import Base Num Env Common DE Sample.

Section Silent.
  Context {N : Num} {E : Env N}.

  Definition eval_only (e : event) : Prop := match e with EEval _ _ => True | _ => False end.
  Definition silent {A} (m : M A) : Prop :=
    forall s, exists evs, tr (snd (m s)) = tr s ++ evs /\ Forall eval_only evs.

  Lemma silent_keep {A} (m : M A) : (forall s, tr (snd (m s)) = tr s) -> silent m.
  Proof. intros H s. exists []. rewrite app_nil_r. auto. Qed.
  Lemma silent_ret {A} (a : A) : silent (ret a).
  Proof. apply silent_keep. reflexivity. Qed.
  Lemma silent_raise {A} e : silent (@raise N E A e).
  Proof. apply silent_keep. reflexivity. Qed.
  Lemma silent_bind {A B} (m : M A) (k : A -> M B) : silent m -> (forall a, silent (k a)) -> silent (bind m k).
  Proof.
    intros Hm Hk s. unfold bind. destruct (Hm s) as (e1 & H1 & G1). destruct (m s) as [[a|x] s1]; cbn in *.
    - destruct (Hk a s1) as (e2 & H2 & G2). exists (e1 ++ e2). rewrite H2, H1, app_assoc.
      split; [reflexivity|]. apply Forall_app. auto.
    - exists e1. auto.
  Qed.
  Lemma silent_draw {A} (f : RNG -> A * RNG) : silent (draw f).
  Proof. apply silent_keep. intros s. unfold draw. destruct (f (fst (rs s))); reflexivity. Qed.
  Lemma silent_call_fun x : silent (call_fun x).
  Proof.
    intros s. unfold call_fun. destruct (e_fun x (rs s)) as [r w]; cbn. exists [EEval x r].
    split; [reflexivity|]. repeat constructor.
  Qed.
  Lemma silent_set_arg m : silent (set_arg m).
  Proof. apply silent_keep. reflexivity. Qed.
  Lemma silent_seed o : silent (seed o).
  Proof. apply silent_keep. intros s. destruct o; reflexivity. Qed.
  Lemma silent_raise_if b e : silent (raise_if b e).
  Proof. unfold raise_if, when. destruct b; [apply silent_raise|apply silent_ret]. Qed.
  Lemma silent_orelse {A} (o : option A) e : silent (orelse o e).
  Proof. destruct o; [apply silent_ret|apply silent_raise]. Qed.
  Lemma silent_replicateM {A} n (m : M A) : silent m -> silent (replicateM n m).
  Proof.
    intro H. induction n as [|n IH]; cbn; [apply silent_ret|].
    apply silent_bind; [exact H|]. intro. apply silent_bind; [exact IH|]. intro. apply silent_ret.
  Qed.
  Lemma silent_mapM {A B} (f : A -> M B) l : (forall a, silent (f a)) -> silent (mapM f l).
  Proof.
    intro H. induction l as [|a l IH]; cbn; [apply silent_ret|].
    apply silent_bind; [apply H|]. intro. apply silent_bind; [exact IH|]. intro. apply silent_ret.
  Qed.
  Lemma silent_foldM {A B} (f : A -> B -> M A) l : (forall a b, silent (f a b)) -> forall acc, silent (foldM f acc l).
  Proof.
    intro H. induction l as [|a l IH]; intro acc; cbn; [apply silent_ret|].
    apply silent_bind; [apply H|]. intro. apply IH.
  Qed.
  Lemma silent_np_argmin v : silent (np_argmin v).
  Proof. unfold np_argmin. destruct v; [apply silent_raise|apply silent_ret]. Qed.

  Ltac sil := repeat first
    [ apply silent_ret | apply silent_raise | apply silent_draw | apply silent_call_fun | apply silent_set_arg
    | apply silent_seed | apply silent_raise_if | apply silent_orelse | apply silent_np_argmin
    | apply silent_replicateM | apply silent_mapM; intro | apply silent_bind; [|intro]
    | match goal with |- silent (match ?x with _ => _ end) => destruct x end ].

  Lemma silent_uniform_vec lo hi : silent (uniform_vec lo hi).
  Proof. unfold uniform_vec, urange, uniform_row, uniform, rand. sil. Qed.
  Lemma silent_check a : silent (s_check_x0 a).
  Proof. unfold s_check_x0, unpack_bounds. sil. Qed.
  Lemma silent_steps a lo hi : silent (s_steps a lo hi).
  Proof. unfold s_steps, when. sil. Qed.
  Lemma silent_seed_cb a : silent (s_seed_cb a).
  Proof. unfold s_seed_cb. sil. Qed.
  Lemma silent_first a lo hi : silent (s_first a lo hi).
  Proof. unfold s_first, uniform_vec, urange, uniform_row, uniform, rand. sil. Qed.
  Lemma silent_first_cb a x f : s_has_cb a = false -> silent (s_first_cb a x f).
  Proof. intro H. unfold s_first_cb. rewrite H. apply silent_ret. Qed.
  Lemma silent_cb a c : s_has_cb a = false -> silent (s_cb a c).
  Proof. intro H. unfold s_cb. rewrite H. apply silent_ret. Qed.

  Lemma silent_mc_inner P js : s_has_cb (mc_args P) = false -> forall c, silent (mc_inner P js c).
  Proof.
    intro H. induction js as [|j js IH]; intro c; cbn [mc_inner]; [apply silent_ret|].
    apply silent_bind.
    - unfold mc_move, mc_propose, randn_vec, randn, rand. sil. apply silent_cb, H.
    - intro c'. destruct (mc_full P c'); [apply silent_ret|apply IH].
  Qed.
  Lemma silent_mc_outer P fl : s_has_cb (mc_args P) = false -> forall c, silent (mc_outer P fl c).
  Proof.
    intro H. induction fl as [|fl IH]; intro c; cbn [mc_outer]; destruct (_ <? _)%Z; try apply silent_ret;
      [apply silent_raise|]. apply silent_bind; [apply silent_mc_inner, H|exact IH].
  Qed.
  Lemma silent_grad j h nf q : silent (hmc_jac j h nf q).
  Proof.
    unfold hmc_jac, numerical_gradient. destruct j; try apply silent_raise;
      (apply silent_bind; [apply silent_foldM; intros [[[x1 x2] g] n] i; unfold ng_one, count_fun; sil|intros [[[x1 x2] g] n]; apply silent_ret]).
  Qed.
  Lemma silent_leap jac st n : (forall nf q, silent (jac nf q)) -> forall q p nf, silent (leap_loop jac st n q p nf).
  Proof.
    intro H. induction n as [|n IH]; intros q p nf; cbn [leap_loop]; [apply silent_ret|].
    apply silent_bind; [apply H|]. intros [g nf']. apply IH.
  Qed.
  Lemma silent_leapfrog jac st n q p nf : (forall nf q, silent (jac nf q)) -> silent (leapfrog jac st n q p nf).
  Proof.
    intro H. unfold leapfrog. apply silent_bind; [apply H|]. intros [g nf']. cbn zeta.
    apply silent_bind; [apply silent_leap, H|]. intros [[q' p'] nf'']. apply silent_bind; [apply H|].
    intros [g' n']. apply silent_ret.
  Qed.
  Lemma silent_hmc_loop P n : s_has_cb (hm_args P) = false -> forall cn, silent (hmc_loop P n cn).
  Proof.
    intro H. induction n as [|n IH]; intro cn; cbn [hmc_loop]; [apply silent_ret|].
    apply silent_bind; [|exact IH]. destruct cn as [c nf]. unfold hmc_move.
    apply silent_bind; [apply silent_replicateM, silent_draw|]. intro p0.
    apply silent_bind; [apply silent_leapfrog; intros; apply silent_grad|]. intros [[q p] nf'].
    apply silent_bind; [unfold count_fun, rand; sil|]. intros [c' n'].
    apply silent_bind; [apply silent_cb, H|]. intro. apply silent_ret.
  Qed.

  (** Whatever the call does, and whether it returns or raises: no callback *)
  Theorem C50_silent_mcmc fl A w a0 : s_has_cb (mca A) = false ->
    Forall eval_only (tr (snd (exec (mcmc_fuel fl A) w a0))).
  Proof.
    intro H. assert (HS : silent (mcmc_fuel fl A)).
    { unfold mcmc_fuel. apply silent_bind; [apply silent_check|]. intros [lo hi].
      apply silent_bind; [apply silent_steps|]. intro st. apply silent_bind; [apply silent_raise_if|]. intros _.
      apply silent_bind; [apply silent_orelse|]. intro b. cbn zeta.
      apply silent_bind; [apply silent_seed_cb|]. intros _. apply silent_bind; [apply silent_first|]. intro x.
      apply silent_bind; [apply silent_call_fun|]. intro f. apply silent_bind; [apply silent_first_cb, H|]. intros _.
      apply silent_bind; [apply silent_mc_outer, H|]. intro c. apply silent_ret. }
    unfold exec. destruct (HS (mkSt w [] a0)) as (evs & H1 & H2). rewrite H1. exact H2.
  Qed.
  Theorem C50_silent_hmc A w a0 : s_has_cb (hma A) = false ->
    Forall eval_only (tr (snd (exec (hmc_sample A) w a0))).
  Proof.
    intro H. assert (HS : silent (hmc_sample A)).
    { unfold hmc_sample. apply silent_bind; [apply silent_check|]. intros [lo hi].
      apply silent_bind; [apply silent_raise_if|]. intros _. apply silent_bind; [apply silent_steps|]. intro st.
      apply silent_bind; [apply silent_raise_if|]. intros _.
      apply silent_bind; [apply silent_seed_cb|]. intros _. apply silent_bind; [apply silent_first|]. intro x.
      apply silent_bind; [unfold count_fun; sil|]. intros [f nf]. apply silent_bind; [apply silent_first_cb, H|]. intros _.
      cbn zeta. apply silent_bind; [apply silent_hmc_loop, H|]. intros [c n].
      apply silent_bind; [apply silent_np_argmin|]. intro. apply silent_ret. }
    unfold exec. destruct (HS (mkSt w [] a0)) as (evs & H1 & H2). rewrite H1. exact H2.
  Qed.
End Silent.
