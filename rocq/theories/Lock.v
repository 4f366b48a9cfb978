(** C46: the ranks of an MPI run of de, side by side.  Rank 0 runs in one environment, another
    rank in a second one.  Their generators are unrelated; the n-th Bcast and the n-th Allreduce
    deliver to the second what they deliver to the first. *)
From Coq Require Import Permutation.
From Verif Require Import Base Num Env Common DE Hoare EvalRules Disc Valid Enough Par.

Section Reduces.
  Context {N : Num}.
  (** What the Allreduce calls of a run delivered. *)
  Fixpoint reduces (l : list event) : list vec :=
    match l with [] => [] | EReduce f :: t => f :: reduces t | _ :: t => reduces t end.
  Lemma reduces_app l1 l2 : reduces (l1 ++ l2) = reduces l1 ++ reduces l2.
  Proof. induction l1 as [|[] l IH]; cbn; congruence. Qed.
  Lemma nbcast_bcasts l : nbcast l = length (bcasts l).
  Proof. induction l as [|[] l IH]; cbn; congruence. Qed.
End Reduces.

(** User code returns, and permutations have the length asked for. *)
Record Returns {N : Num} (E : Env N) : Prop := {
  re_fun : forall x w, exists y w', @e_fun N E x w = (inl y, w');
  re_cb : forall X st w, exists w', @e_cb N E X st w = (None, w');
  re_perm : forall n r, length (fst (@e_perm N E n r)) = n }.

(** [t]: the trace of rank 0.  The collectives deliver to [E1] what they delivered there. *)
Record Delivers {N : Num} (E1 : Env N) (t : list event) : Prop := {
  dl_bcast : forall n X, @e_bcast N E1 n X = nth n (bcasts t) [];
  dl_reduce : forall n X f, @e_allreduce N E1 n X f = nth n (reduces t) [] }.

#[local] Hint Resolve disc_uniform disc_eval_pop disc_np_argmin disc_eval_kindM disc_uniform_vec disc_rand_mat
  disc_lhs disc_selection_sync disc_rec_write disc_rec_alloc disc_unpack_bounds disc_check_pop
  disc_seed_and_cb disc_check_updating disc_delete_shuffle disc_np_randint disc_de_cons disc_de_step : disc.

Section Lock.
  Context {N : Num} {E0 E1 : Env N}.
  Variable t : list event.
  Hypothesis (H0 : Returns E0) (H1 : Returns E1) (HD : Delivers E1 t).

  Definition LR (s0 : @St N E0) (s1 : @St N E1) : Prop :=
    bcasts (tr s0) = bcasts (tr s1) /\ reduces (tr s0) = reduces (tr s1) /\
    length (reduces (tr s0)) = length (bcasts (tr s0)) /\
    cbs (tr s0) = cbs (tr s1) /\ argbuf s0 = argbuf s1.

  Definition Good (l : list event) : Prop :=
    (exists b, bcasts t = bcasts l ++ b) /\ (exists v, reduces t = reduces l ++ v).
  Lemma good_before l evs : Good (l ++ evs) -> Good l.
  Proof.
    intros [[b Hb] [v Hv]]. rewrite bcasts_app in Hb. rewrite reduces_app in Hv.
    split; eexists; [rewrite Hb|rewrite Hv]; rewrite <- app_assoc; reflexivity.
  Qed.

  (** Both return, with [Q] between the values, or both raise the same exception, as long as
      the collectives of the first do what they do in the whole run. *)
  Definition lock {A A'} (m0 : @M N E0 A) (m1 : @M N E1 A') (Q : A -> A' -> Prop) : Prop :=
    forall s0 s1, LR s0 s1 -> Good (tr (snd (m0 s0))) ->
      LR (snd (m0 s0)) (snd (m1 s1)) /\
      match fst (m0 s0), fst (m1 s1) with
      | inl a, inl b => Q a b
      | inr e, inr e' => e = e'
      | _, _ => False
      end.

  Lemma lock_ret {A B} (a : A) (b : B) (Q : A -> B -> Prop) : Q a b -> lock (ret a) (ret b) Q.
  Proof. intros H s1 s2 HR _. split; auto. Qed.
  Lemma lock_raise {A B} e (Q : A -> B -> Prop) : lock (raise e) (raise e) Q.
  Proof. intros s1 s2 HR _. split; cbn; auto. Qed.
  Lemma lock_bind {A B A' B'} (m0 : @M N E0 A) (m1 : @M N E1 B) (k0 : A -> @M N E0 A')
      (k1 : B -> @M N E1 B') (Q : A -> B -> Prop) Q' :
    (forall a, disc (k0 a)) -> lock m0 m1 Q -> (forall a b, Q a b -> lock (k0 a) (k1 b) Q') ->
    lock (bind m0 k0) (bind m1 k1) Q'.
  Proof.
    intros Hd H Hk s1 s2 HR HG. unfold bind in *. specialize (H s1 s2 HR).
    destruct (m0 s1) as [[a|e] t1], (m1 s2) as [[b|e'] t2]; cbn in H.
    - assert (HG' : Good (tr t1)).
      { destruct (Hd a t1) as (evs & He & _). rewrite He in HG. eapply good_before, HG. }
      destruct (H HG') as [HR' HQ]. apply Hk; auto.
    - assert (HG' : Good (tr t1)).
      { destruct (Hd a t1) as (evs & He & _). rewrite He in HG. eapply good_before, HG. }
      destruct (H HG') as [_ []].
    - destruct (H HG) as [_ []].
    - destruct (H HG) as [HR' ->]. split; cbn; auto.
  Qed.
  Lemma lock_conseq {A B} (m0 : @M N E0 A) (m1 : @M N E1 B) (Q Q' : A -> B -> Prop) :
    lock m0 m1 Q -> (forall a b, Q a b -> Q' a b) -> lock m0 m1 Q'.
  Proof.
    intros H HQ s1 s2 HR HG. destruct (H s1 s2 HR HG) as [K1 K2]. split; [exact K1|].
    destruct (fst (m0 s1)), (fst (m1 s2)); auto.
  Qed.
  Lemma lock_raise_if b e : lock (raise_if b e) (raise_if b e) eq.
  Proof. destruct b; [apply lock_raise | apply lock_ret; reflexivity]. Qed.
  Lemma lock_orelse {A} (o : option A) e : lock (orelse o e) (orelse o e) eq.
  Proof. destruct o; [apply lock_ret; reflexivity | apply lock_raise]. Qed.
  Lemma lock_when b m0 m1 : lock m0 m1 eq -> lock (when b m0) (when b m1) eq.
  Proof. intro H. destruct b; [exact H | apply lock_ret; reflexivity]. Qed.
  Lemma lock_np_argmin v : lock (np_argmin v) (np_argmin v) eq.
  Proof. destruct v; [apply lock_raise | apply lock_ret; reflexivity]. Qed.
  Lemma lock_set_arg X : lock (set_arg X) (set_arg X) eq.
  Proof. intros s1 s2 (A1 & A2 & A3 & A4 & _) _. repeat split; cbn; assumption. Qed.
  Lemma lock_seed o : lock (seed o) (seed o) eq.
  Proof. intros s1 s2 HR _. destruct o; (split; [exact HR|reflexivity]). Qed.
  (** values drawn from the two generators are unrelated *)
  Lemma lock_draw {A B} (f0 : @RNG N E0 -> A * @RNG N E0) (f1 : @RNG N E1 -> B * @RNG N E1)
      (P : A -> Prop) (P' : B -> Prop) :
    (forall r, P (fst (f0 r))) -> (forall r, P' (fst (f1 r))) ->
    lock (draw f0) (draw f1) (fun a b => P a /\ P' b).
  Proof.
    intros HP HP' s1 s2 HR _. unfold draw. specialize (HP (fst (rs s1))). specialize (HP' (fst (rs s2))).
    destruct (f0 (fst (rs s1))), (f1 (fst (rs s2))). split; [exact HR|]. cbn in *. auto.
  Qed.
  Definition any {A B} : A -> B -> Prop := fun _ _ => True.
  Lemma lock_draw_any {A B} (f0 : @RNG N E0 -> A * @RNG N E0) (f1 : @RNG N E1 -> B * @RNG N E1) :
    lock (draw f0) (draw f1) any.
  Proof.
    eapply lock_conseq; [apply (lock_draw _ _ (fun _ => True) (fun _ => True)); auto|].
    intros; exact I.
  Qed.

  Lemma lock_replicateM {A B} n (m0 : @M N E0 A) (m1 : @M N E1 B) (Q : A -> B -> Prop) :
    disc m0 -> lock m0 m1 Q -> lock (replicateM n m0) (replicateM n m1) (fun l l' => length l = n /\ length l' = n).
  Proof.
    intros Hd H. induction n as [|n IH]; cbn; [apply lock_ret; auto|].
    eapply lock_bind; [intros; d1; apply Hd|exact H|]. intros a b Hab.
    eapply lock_bind; [intros; d1|exact IH|]. intros l l' [Hl Hl']. apply lock_ret. cbn. auto.
  Qed.
  Lemma lock_mapM {A A' B B'} (f0 : A -> @M N E0 B) (f1 : A' -> @M N E1 B') (P : A -> A' -> Prop)
      (Q : B -> B' -> Prop) l l' :
    (forall a, disc (f0 a)) -> (forall a a', P a a' -> lock (f0 a) (f1 a') Q) -> Forall2 P l l' ->
    lock (mapM f0 l) (mapM f1 l') (Forall2 Q).
  Proof.
    intros Hd H HF. induction HF as [|x y l l' Hxy HF IH]; cbn; [apply lock_ret; constructor|].
    eapply lock_bind; [intros; d1; apply Hd|apply H, Hxy|]. intros a b Hab.
    eapply lock_bind; [intros; d1|apply IH|]. intros bs bs' Hb. apply lock_ret. constructor; assumption.
  Qed.

  Lemma Forall2_eq {A} (l l' : list A) : Forall2 eq l l' -> l = l'.
  Proof. induction 1; congruence. Qed.
  Lemma Forall2_self {A} (l : list A) : Forall2 eq l l.
  Proof. induction l; auto. Qed.
  Lemma Forall2_any {A B} (l : list A) (l' : list B) : length l = length l' -> Forall2 any l l'.
  Proof.
    revert l'. induction l as [|a l IH]; destruct l'; cbn; intros Hl; try discriminate; constructor;
      [exact I|auto].
  Qed.
  Lemma Forall2_len {A B} (P : A -> B -> Prop) l l' : Forall2 P l l' -> length l = length l'.
  Proof. induction 1; cbn; congruence. Qed.

  Lemma lock_rec_alloc ra v p mi : lock (rec_alloc ra v p mi) (rec_alloc ra v p mi) eq.
  Proof.
    unfold rec_alloc, rec_nout. destruct ra; [|apply lock_ret; reflexivity].
    apply lock_bind with (Q := eq); [intros; d1|apply lock_orelse|]. intros a b <-.
    destruct (mi <? 0)%Z; [apply lock_raise | apply lock_ret; reflexivity].
  Qed.
  Lemma lock_rec_write n mi it pop pf best r :
    lock (rec_write n mi it pop pf best r) (rec_write n mi it pop pf best r) eq.
  Proof.
    unfold rec_write, rec_put. destruct n as [n|]; [|apply lock_ret; reflexivity].
    destruct r as [r|]; [|apply lock_ret; reflexivity].
    apply lock_bind with (Q := eq); [intros; d1| |].
    - destruct (mi <? it)%Z; [apply lock_raise|].
      destruct (0 <? n)%Z; [|apply lock_ret; reflexivity].
      apply lock_bind with (Q := eq); [intros; d1|apply lock_orelse|]. intros a b <-.
      apply lock_bind with (Q := eq); [intros; d1|apply lock_orelse|]. intros c d <-.
      apply lock_ret. reflexivity.
    - intros a b <-. apply lock_ret. reflexivity.
  Qed.
  Lemma lock_check_pop a : lock (check_pop a) (check_pop a) eq.
  Proof.
    unfold check_pop.
    repeat (apply lock_bind with (Q := eq); [intros; d1|apply lock_raise_if|]; intros ? ? _).
    apply lock_raise_if.
  Qed.
  Lemma lock_seed_and_cb a : lock (seed_and_cb a) (seed_and_cb a) eq.
  Proof.
    unfold seed_and_cb. apply lock_bind with (Q := eq); [intros; d1|apply lock_seed|].
    intros _ _ _. apply lock_raise_if.
  Qed.
  Lemma lock_unpack b : lock (unpack_bounds b) (unpack_bounds b) eq.
  Proof.
    destruct b as [x|v|c m]; try apply lock_raise.
    destruct c as [|[|[|c]]]; try apply lock_raise. apply lock_ret. reflexivity.
  Qed.
  Lemma lock_call_cb X st : lock (call_cb X st) (call_cb X st) eq.
  Proof.
    intros s1 s2 (A1 & A2 & A3 & A4 & A5) _. unfold call_cb.
    destruct (re_cb _ H0 X st (rs s1)) as [w Hw], (re_cb _ H1 X st (rs s2)) as [w' Hw'].
    rewrite Hw, Hw'. split; [|reflexivity]. unfold LR. cbn [snd tr argbuf].
    rewrite !bcasts_app, !reduces_app, !cbs_app. cbn. rewrite !app_nil_r. repeat split; congruence.
  Qed.

  Lemma lock_uniform_vec lo hi : lock (uniform_vec lo hi) (uniform_vec lo hi) any.
  Proof.
    unfold uniform_vec. eapply lock_bind; [intros; d1| |].
    { unfold urange. destruct (frange _ _); [apply (lock_ret _ _ any); exact I|apply lock_raise]. }
    intros _ _ _. unfold uniform_row. eapply lock_conseq.
    - apply (lock_mapM _ _ eq any); [intros; apply disc_uniform| |apply Forall2_self].
      intros a a' <-. unfold uniform. eapply lock_bind; [intros; d1|apply lock_draw_any|].
      intros. apply lock_ret. exact I.
    - intros; exact I.
  Qed.
  Lemma lock_rand_mat p d : lock (rand_mat p d) (rand_mat p d) (fun a b => length a = p /\ length b = p).
  Proof.
    unfold rand_mat. eapply lock_replicateM; [unfold rand; d1|].
    eapply lock_replicateM; [apply disc_draw|apply lock_draw_any].
  Qed.
  Lemma lock_lhs p d lo hi : lock (lhs p d lo hi) (lhs p d lo hi) any.
  Proof.
    unfold lhs. eapply lock_bind; [intros; unfold perm; d1|apply lock_rand_mat|].
    intros. cbn zeta. eapply lock_bind; [intros; d1| |].
    - eapply lock_replicateM; [apply disc_draw|apply lock_draw_any].
    - intros. apply lock_ret. exact I.
  Qed.

  (** *** Evaluation *)
  Lemma fill_calls {E : Env N} (HE : Returns E) (X : matrix) l : forall (f : vec) s,
    exists g s' evs,
      foldM (fun f i => y <- @call_fun N E (nth i X []) ;; ret (upd i y f)) f l s = (inl g, s') /\
      tr s' = tr s ++ evs /\ bcasts evs = [] /\ reduces evs = [] /\ cbs evs = [] /\
      argbuf s' = argbuf s.
  Proof.
    induction l as [|i l IH]; intros f s; cbn [foldM].
    - exists f, s, []. rewrite app_nil_r. repeat split; reflexivity.
    - unfold bind, call_fun at 1. destruct (re_fun _ HE (nth i X []) (rs s)) as (y & w & Hy).
      rewrite Hy. cbn [ret].
      destruct (IH (upd i y f) (mkSt w (tr s ++ [EEval (nth i X []) (inl y)]) (argbuf s)))
        as (g & s' & evs & K1 & K2 & K3 & K4 & K5 & K6).
      exists g, s', (EEval (nth i X []) (inl y) :: evs). unfold bind in K1. rewrite K1. split; [reflexivity|].
      rewrite K2. cbn. rewrite <- app_assoc. repeat split; assumption.
  Qed.

  Lemma nth_prefix {A} (L l r : list A) a d : L = l ++ a :: r -> nth (length l) L d = a.
  Proof. intros ->. rewrite app_nth2, Nat.sub_diag by lia. reflexivity. Qed.

  Lemma eval_mpi_shape {E : Env N} (HE : Returns E) X s :
    exists s' evs,
      let B := @e_bcast N E (length (bcasts (tr s))) X in
      exists g, eval_mpi X s = (inl (B, @e_allreduce N E (length (bcasts (tr s))) B g), s') /\
      tr s' = tr s ++ evs /\ bcasts evs = [B] /\
      reduces evs = [@e_allreduce N E (length (bcasts (tr s))) B g] /\ cbs evs = [] /\
      argbuf s' = argbuf s.
  Proof.
    unfold eval_mpi, bind, mpi_bcast. rewrite nbcast_bcasts. cbn zeta.
    set (B := @e_bcast N E (length (bcasts (tr s))) X).
    destruct (fill_calls HE B (arange e_rank (length B) e_mpisize) (repeat n0 (length B))
                (mkSt (rs s) (tr s ++ [EBcast B]) (argbuf s)))
      as (g & s' & evs & K1 & K2 & K3 & K4 & K5 & K6).
    unfold bind in K1. rewrite K1. unfold mpi_allreduce.
    assert (HN : nbcast (tr s') - 1 = length (bcasts (tr s))).
    { rewrite nbcast_bcasts, K2. cbn [tr]. rewrite !bcasts_app, K3, !app_length. cbn. lia. }
    rewrite HN. cbn [ret].
    eexists. exists (EBcast B :: evs ++ [EReduce (@e_allreduce N E (length (bcasts (tr s))) B g)]).
    exists g. split; [reflexivity|]. cbn [tr argbuf]. rewrite K2. cbn in K6 |- *.
    rewrite <- !app_assoc. cbn. rewrite !bcasts_app, !reduces_app, !cbs_app, K3, K4, K5. cbn.
    repeat split; assumption.
  Qed.

  Lemma lock_eval X X' : lock (eval_pop Mpi X) (eval_pop Mpi X') eq.
  Proof.
    intros s0 s1 (A1 & A2 & A3 & A4 & A5) HG. cbn [eval_pop] in *.
    destruct (eval_mpi_shape H0 X s0) as (s0' & v0 & g0 & K1 & K2 & K3 & K4 & K5 & K6).
    destruct (eval_mpi_shape H1 X' s1) as (s1' & v1 & g1 & L1 & L2 & L3 & L4 & L5 & L6).
    rewrite K1 in HG |- *. rewrite L1. cbn [fst snd] in *. rewrite K2 in HG.
    destruct HG as [[b Hb] [v Hv]]. rewrite bcasts_app, K3, <- app_assoc in Hb.
    rewrite reduces_app, K4, <- app_assoc in Hv.
    assert (HB : @e_bcast N E1 (length (bcasts (tr s1))) X' = @e_bcast N E0 (length (bcasts (tr s0))) X).
    { rewrite (dl_bcast _ _ HD), <- A1. eapply nth_prefix, Hb. }
    assert (HV : @e_allreduce N E1 (length (bcasts (tr s1))) (@e_bcast N E1 (length (bcasts (tr s1))) X') g1
                 = @e_allreduce N E0 (length (bcasts (tr s0))) (@e_bcast N E0 (length (bcasts (tr s0))) X) g0).
    { rewrite (dl_reduce _ _ HD), <- A1. rewrite <- A3 at 1. eapply nth_prefix, Hv. }
    rewrite HB in L3, L4, HV |- *. rewrite HV in L4 |- *. split; [|reflexivity].
    unfold LR. rewrite K2, L2, !bcasts_app, !reduces_app, !cbs_app, K3, K4, K5, L3, L4, L5, !app_length.
    cbn. repeat split; congruence.
  Qed.

  (** *** de *)
  Lemma lock_shuffle p i :
    lock (delete_shuffle p i) (delete_shuffle p i) (fun a b => length a = length b).
  Proof.
    unfold delete_shuffle. eapply lock_bind; [intros; d1| |].
    - unfold perm. apply (lock_draw _ _ (fun l => length l = p - 1) (fun l => length l = p - 1));
        [apply (re_perm _ H0)|apply (re_perm _ H1)].
    - intros a b [Ha Hb]. apply lock_ret. rewrite !map_length. congruence.
  Qed.
  Lemma lock_mutate st is is' F X b e : length is = length is' ->
    lock (orelse (mutate st is F X b) e) (orelse (mutate st is' F X b) e) any.
  Proof.
    intros Hl. destruct (Nat.lt_ge_cases (length is) (needs_of st)) as [K|K].
    - rewrite !mutate_few by congruence. apply lock_raise.
    - destruct (mutate_enough st is F X b K) as [v ->].
      destruct (mutate_enough st is' F X b) as [v' ->]; [congruence|]. apply lock_ret. exact I.
  Qed.
  Lemma lock_cons c lo hi u u' : lock (de_cons c lo hi u) (de_cons c lo hi u') any.
  Proof.
    destruct c; cbn; [apply lock_ret; exact I|].
    eapply lock_bind; [intros; d1|apply lock_uniform_vec|]. intros. apply lock_ret. exact I.
  Qed.
  Lemma map3_len {A B C D} (f : A -> B -> C -> D) l1 : forall l2 l3,
    length (map3 f l1 l2 l3) = Nat.min (length l1) (Nat.min (length l2) (length l3)).
  Proof.
    induction l1 as [|a l1 IH]; intros [|b l2] [|c l3]; cbn; auto; rewrite ?IH, ?Nat.min_0_r; reflexivity.
  Qed.
  Lemma lock_cands P r1 r1' X g : length r1 = length r1' ->
    lock (de_cands P r1 X g) (de_cands P r1' X g) any.
  Proof.
    intros Hr. unfold de_cands. eapply lock_bind; [intros; d1| |].
    - apply (lock_mapM _ _ eq); [intros; apply disc_delete_shuffle| |apply Forall2_self].
      intros a a' <-. apply lock_shuffle.
    - intros iss iss' HI. eapply lock_bind; [intros; d1| |].
      + eapply lock_mapM; [intros; d1| |exact HI]. intros a a' Ha. apply lock_mutate, Ha.
      + intros V V' HV. apply Forall2_len in HV.
        eapply lock_bind; [intros; d1| |].
        * apply lock_replicateM with (Q := any); [apply disc_np_randint|].
          unfold np_randint. destruct (de_d P); [apply lock_raise|apply lock_draw_any].
        * intros ir ir' [Hi Hi']. eapply lock_conseq.
          -- apply (lock_mapM _ _ any any); [intros; apply disc_de_cons|intros; apply lock_cons|].
             apply Forall2_any. rewrite !map3_len, !combine_length. congruence.
          -- intros; exact I.
  Qed.
  Lemma lock_step P it s : de_mode P = Mpi -> lock (de_step P true it s) (de_step P true it s) eq.
  Proof.
    intros HM. unfold de_step. eapply lock_bind; [|apply lock_rand_mat|].
    { intros. unfold de_sync, de_cands, set_alias. d1. }
    intros r r' [Hr Hr']. eapply lock_bind; [|apply lock_raise_if|].
    { intros. unfold de_sync, de_cands, set_alias. d1. }
    intros _ _ _. apply lock_bind with (Q := eq).
    - intros [s' c]. d1.
    - unfold de_sync. eapply lock_bind; [intros; unfold set_alias; d1|apply lock_cands; congruence|].
      intros U U' _. rewrite HM. apply lock_bind with (Q := eq).
      + intros. unfold set_alias. d1.
      + unfold selection_sync. apply lock_bind with (Q := eq); [intros [? ?]; d1|apply lock_eval|].
        intros [X f] [X' f'] [= <- <-]. apply lock_bind with (Q := eq); [intros; d1|apply lock_np_argmin|].
        intros _ _ _. apply lock_ret. reflexivity.
      + intros sel sel' <-. apply lock_bind with (Q := eq); [intros; d1| |].
        * apply lock_when, lock_set_arg.
        * intros _ _ _. apply lock_ret. reflexivity.
    - intros [s1 c] [s1' c'] [= <- <-]. apply lock_bind with (Q := eq); [intros; d1|apply lock_rec_write|].
      intros r0 r0' <-. apply lock_ret. reflexivity.
  Qed.
  Lemma lock_drive P cb n : de_mode P = Mpi -> forall it s,
    lock (drive (de_drv P true) cb n it s) (drive (de_drv P true) cb n it s) eq.
  Proof.
    intros HM. induction n as [|n IH]; intros it s; cbn [drive]; [apply lock_raise|]. cbn zeta.
    apply lock_bind with (Q := eq); [|apply lock_step, HM|].
    { intros. unfold result. cbn [d_post de_drv]. d1. apply disc_drive; intros; [apply disc_de_step|apply disc_ret]. }
    intros [s' c] [s1 c1] [= <- <-]. apply lock_bind with (Q := eq).
    { intros. unfold result. cbn [d_post de_drv]. d1. apply disc_drive; intros; [apply disc_de_step|apply disc_ret]. }
    - apply lock_when, lock_call_cb.
    - intros _ _ _. destruct c as [c|].
      + unfold result. apply lock_bind with (Q := eq); [intros; d1|apply lock_orelse|].
        intros m m' <-. apply lock_ret. reflexivity.
      + cbn [d_post de_drv]. apply IH.
  Qed.

  Ltac fin := apply disc_drive; intros; [apply disc_de_step|apply disc_ret].
  Lemma lock_de A : a_backend (dea A) = Some "mpi"%string ->
    lock (de_minimize A) (de_minimize A) eq.
  Proof.
    intros HB.
    assert (HS : is_sync (dea_updating A) (dea A) = true)
      by (unfold is_sync; rewrite HB; apply orb_true_r).
    assert (HK : eval_kind true (a_workers (dea A)) (a_backend (dea A)) = inl Mpi)
      by (rewrite HB; reflexivity).
    unfold de_minimize. cbn zeta. rewrite HS.
    apply lock_bind with (Q := eq); [intros; d1; fin|apply lock_check_pop|]. intros _ _ _.
    apply lock_bind with (Q := eq); [intros; d1; fin|apply lock_raise_if|]. intros _ _ _.
    apply lock_bind with (Q := eq); [intros; d1; fin|apply lock_raise_if|]. intros _ _ _.
    apply lock_bind with (Q := eq); [intros; d1; fin|apply lock_raise_if|]. intros _ _ _.
    apply lock_bind with (Q := eq); [intros; d1; fin|apply lock_orelse|]. intros st _ <-.
    apply lock_bind with (Q := eq); [intros; unfold de; d1; fin|apply lock_seed_and_cb|]. intros _ _ _.
    unfold de, eval_kindM. rewrite HK.
    change (bind (ret Mpi) ?k) with (k Mpi). cbn beta zeta.
    eapply lock_bind; [intros; d1; fin|apply lock_unpack|]. intros [lo hi] _ <-.
    eapply lock_bind; [intros; d1; fin|apply lock_orelse|]. intros con _ <-.
    apply lock_bind with (Q := any); [intros; d1; fin| |].
    { destruct (a_x0 (dea A)); [apply lock_ret; exact I|apply lock_lhs]. }
    intros X X' _.
    eapply lock_bind; [intros; d1; fin|apply lock_raise_if|]. intros _ _ _.
    apply lock_bind with (Q := eq); [intros [? ?]; d1; fin|apply lock_eval|].
    intros [X1 f] _ <-.
    eapply lock_bind; [intros; d1; fin|apply lock_when, lock_set_arg|]. intros _ _ _.
    eapply lock_bind; [intros; d1; fin|apply lock_np_argmin|]. intros gb _ <-.
    eapply lock_bind; [intros; d1; fin|apply lock_rec_alloc|]. intros no _ <-.
    eapply lock_bind; [intros; d1; fin|apply lock_rec_write|]. intros r _ <-.
    eapply lock_bind; [intros; fin|apply lock_when, lock_call_cb|]. intros _ _ _.
    apply lock_drive. reflexivity.
  Qed.
End Lock.

(** Two ranks of a run: the same outcome, the same collectives, the same calls of the callback. *)
Record InStep {N : Num} {E0 E1 : Env N} {A} (r0 : (A + Exn) * @St N E0) (r1 : (A + Exn) * @St N E1)
  : Prop := {
  is_outcome : fst r0 = fst r1;
  is_bcast : bcasts (tr (snd r0)) = bcasts (tr (snd r1));
  is_reduce : reduces (tr (snd r0)) = reduces (tr (snd r1));
  is_callback : cbs (tr (snd r0)) = cbs (tr (snd r1));
  is_x0 : argbuf (snd r0) = argbuf (snd r1) }.

Theorem C46_de {N : Num} (E0 E1 : Env N) A w0 w1 a0 :
  a_backend (dea A) = Some "mpi"%string ->
  Returns E0 -> Returns E1 ->
  Delivers E1 (tr (snd (@exec N E0 _ (de_minimize A) w0 a0))) ->
  InStep (@exec N E0 _ (de_minimize A) w0 a0) (@exec N E1 _ (de_minimize A) w1 a0).
Proof.
  intros HB H0 H1 HD. unfold exec in *.
  destruct (lock_de _ H0 H1 HD A HB (mkSt w0 [] a0) (mkSt w1 [] a0)) as [(K1 & K2 & _ & K4 & K5) K6].
  - repeat split.
  - split; exists []; rewrite app_nil_r; reflexivity.
  - split; auto. destruct (fst (de_minimize A _)), (fst (de_minimize A (mkSt w1 [] a0))); try contradiction; congruence.
Qed.
