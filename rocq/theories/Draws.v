(** C68: which random numbers a call uses.  A call that returns has drawn from numpy's generator
    exactly the numbers that its arguments and the number of iterations determine, whatever the
    objective returned. *)
From Verif Require Import Base Num Env Common DE CPSO NA Mat CMAES VDCMA Sample Hoare EvalRules.

(** ** What is drawn *)
Inductive Use := URand | UNormal | UPerm (n : nat) | UInt (n : nat).

Section Spec.
  Context {N : Num} {E : Env N}.

  Definition use1 (g : RNG) (u : Use) : RNG :=
    match u with
    | URand => snd (e_rand g)
    | UNormal => snd (e_randn g)
    | UPerm n => snd (e_perm n g)
    | UInt n => snd (e_randint n g)
    end.
  (** the generator after these draws, in this order *)
  Definition consume (us : list Use) (g : RNG) : RNG := fold_left use1 us g.
  Definition times (n : nat) (us : list Use) : list Use := concat (repeat us n).

  (** The generator that the first draw of a call sees. *)
  Definition begin (sd : option Z) (g : RNG) : RNG :=
    match sd with None => g | Some z => e_seed z end.

  (** User code leaves the generator alone (when it returns). *)
  Record Gentle : Prop := {
    ge_fun : forall x w y w', e_fun x w = (inl y, w') -> fst w' = fst w;
    ge_cb : forall X st w w', e_cb X st w = (None, w') -> fst w' = fst w;
    ge_scb : forall x st w w', e_scb x st w = (None, w') -> fst w' = fst w }.

  (** Generations [it + 1 .. nit]: [G i] in generation i, [R i] between generation i and the
      next one. *)
  Inductive Gens (G : Z -> list Use) (R : Z -> list Use -> Prop) : Z -> Z -> list Use -> Prop :=
  | gens_last it : Gens G R it (it + 1) (G (it + 1)%Z)
  | gens_more it nit u us :
      R (it + 1)%Z u -> Gens G R (it + 1) nit us -> Gens G R it nit (G (it + 1)%Z ++ u ++ us).

  (** ** The logic *)
  Definition eats {A} (m : M A) (P : A -> list Use -> Prop) : Prop :=
    forall s a s', m s = (inl a, s') ->
      exists us, fst (rs s') = consume us (fst (rs s)) /\ P a us.
  Definition takes {A} (m : M A) (U : list Use) (Q : A -> Prop) : Prop :=
    eats m (fun a us => us = U /\ Q a).
  Definition dry {A} (m : M A) : Prop := takes m [] (fun _ => True).

  Lemma consume_app u v g : consume (u ++ v) g = consume v (consume u g).
  Proof. apply fold_left_app. Qed.
  Lemma times_S n us : times (S n) us = us ++ times n us.
  Proof. reflexivity. Qed.
  Lemma times_add n m us : times (n + m) us = times n us ++ times m us.
  Proof. unfold times. rewrite repeat_app, concat_app. reflexivity. Qed.
  Lemma times_mul n m us : times n (times m us) = times (n * m) us.
  Proof. induction n; [reflexivity|]. rewrite times_S, IHn. cbn [Nat.mul]. rewrite times_add. reflexivity. Qed.

  Lemma times_nil n : times n [] = [].
  Proof. induction n; [reflexivity|]. rewrite times_S. exact IHn. Qed.

  Lemma bind_inv {A B} (m : M A) (k : A -> M B) s b s' :
    bind m k s = (inl b, s') -> exists a s1, m s = (inl a, s1) /\ k a s1 = (inl b, s').
  Proof. unfold bind. destruct (m s) as [[a|e] s1]; intros H; [eauto|discriminate]. Qed.

  Lemma eats_weaken {A} (m : M A) (P R : A -> list Use -> Prop) :
    eats m P -> (forall a us, P a us -> R a us) -> eats m R.
  Proof. intros H HI s a s' Hs. destruct (H s a s' Hs) as (us & H1 & H2). eauto. Qed.
  Lemma eats_ret {A} (a : A) (P : A -> list Use -> Prop) : P a [] -> eats (ret a) P.
  Proof. intros H s b s' [= <- <-]. exists []. auto. Qed.
  Lemma eats_raise {A} e (P : A -> list Use -> Prop) : eats (raise e) P.
  Proof. intros s b s' Hs. discriminate. Qed.
  Lemma eats_bind {A B} (m : M A) (k : A -> M B) (P : A -> list Use -> Prop) R :
    eats m P -> (forall a us, P a us -> eats (k a) (fun b vs => R b (us ++ vs))) ->
    eats (bind m k) R.
  Proof.
    intros H HK s b s' Hs. destruct (bind_inv _ _ _ _ _ Hs) as (a & s1 & H1 & H2).
    destruct (H _ _ _ H1) as (us & K1 & K2). destruct (HK a us K2 _ _ _ H2) as (vs & L1 & L2).
    exists (us ++ vs). rewrite consume_app, <- K1. auto.
  Qed.
  Lemma eats_take {A B} (m : M A) (k : A -> M B) U (Q : A -> Prop) R :
    takes m U Q -> (forall a, Q a -> eats (k a) (fun b vs => R b (U ++ vs))) -> eats (bind m k) R.
  Proof. intros H HK. eapply eats_bind; [exact H|]. intros a us [-> HQ]. apply HK, HQ. Qed.
  Lemma eats_dry {A B} (m : M A) (k : A -> M B) (Q : A -> Prop) R :
    takes m [] Q -> (forall a, Q a -> eats (k a) R) -> eats (bind m k) R.
  Proof. intros H HK. exact (eats_take _ _ _ _ _ H HK). Qed.

  Lemma takes_weaken {A} (m : M A) U (Q R : A -> Prop) :
    takes m U Q -> (forall a, Q a -> R a) -> takes m U R.
  Proof. intros H HI. eapply eats_weaken; [exact H|]. intros a us [H1 H2]. auto. Qed.
  Lemma takes_ret {A} (a : A) (Q : A -> Prop) : Q a -> takes (ret a) [] Q.
  Proof. intros H. apply eats_ret. auto. Qed.
  Lemma takes_bind {A B} (m : M A) (k : A -> M B) U V (Q : A -> Prop) (R : B -> Prop) :
    takes m U Q -> (forall a, Q a -> takes (k a) V R) -> takes (bind m k) (U ++ V) R.
  Proof.
    intros H HK. eapply eats_take; [exact H|]. intros a HQ. eapply eats_weaken; [apply HK, HQ|].
    intros b vs [-> HR]. auto.
  Qed.
  (** the last action of a computation *)
  Lemma takes_end {A B} (m : M A) (k : A -> M B) U (Q : A -> Prop) (R : B -> Prop) :
    takes m U Q -> (forall a, Q a -> takes (k a) [] R) -> takes (bind m k) U R.
  Proof. intros H HK. rewrite <- (app_nil_r U). eapply takes_bind; eauto. Qed.
  Lemma dry_bind {A B} (m : M A) (k : A -> M B) V (Q : A -> Prop) (R : B -> Prop) :
    takes m [] Q -> (forall a, Q a -> takes (k a) V R) -> takes (bind m k) V R.
  Proof. intros H HK. exact (takes_bind _ _ [] V Q R H HK). Qed.

  Lemma takes_draw {A} (f : RNG -> A * RNG) u (Q : A -> Prop) :
    (forall g, use1 g u = snd (f g)) -> (forall g, Q (fst (f g))) -> takes (draw f) [u] Q.
  Proof.
    intros H HQ s a s' Hs. unfold draw in Hs. specialize (H (fst (rs s))). specialize (HQ (fst (rs s))).
    destruct (f (fst (rs s))) as [b r]. injection Hs as <- <-. exists [u]. cbn in *. auto.
  Qed.
  Lemma takes_rand : takes rand [URand] (fun _ => True).
  Proof. apply takes_draw; auto. Qed.
  Lemma takes_randn : takes randn [UNormal] (fun _ => True).
  Proof. apply takes_draw; auto. Qed.
  Lemma takes_perm n : takes (perm n) [UPerm n] (fun _ => True).
  Proof. apply takes_draw; auto. Qed.
  Lemma takes_randint n : takes (randint n) [UInt n] (fun _ => True).
  Proof. apply takes_draw; auto. Qed.
  Lemma takes_uniform lo hi : takes (uniform lo hi) [URand] (fun _ => True).
  Proof. eapply takes_end; [apply takes_rand|]. intros a _. apply takes_ret. exact I. Qed.

  Lemma takes_replicateM {A} n (m : M A) U (Q : A -> Prop) :
    takes m U Q -> takes (replicateM n m) (times n U) (fun l => length l = n /\ Forall Q l).
  Proof.
    intros H. induction n as [|n IH]; cbn [replicateM].
    - apply takes_ret. auto.
    - rewrite times_S. eapply takes_bind; [exact H|]. intros a Ha.
      eapply takes_end; [exact IH|]. intros l [Hl Hf]. apply takes_ret. split; cbn; auto.
  Qed.
  Lemma takes_mapM {A B} (f : A -> M B) U (Q : B -> Prop) l :
    (forall a, takes (f a) U Q) ->
    takes (mapM f l) (times (length l) U) (fun r => length r = length l /\ Forall Q r).
  Proof.
    intros H. induction l as [|x l IH]; cbn [mapM length].
    - apply takes_ret. auto.
    - rewrite times_S. eapply takes_bind; [apply H|]. intros a Ha.
      eapply takes_end; [exact IH|]. intros r [Hl Hf]. apply takes_ret. split; cbn; auto.
  Qed.
  Lemma takes_foldM {A B} (f : A -> B -> M A) U (I : A -> Prop) l : forall acc,
    (forall a b, I a -> takes (f a b) U I) -> I acc -> takes (foldM f acc l) (times (length l) U) I.
  Proof.
    induction l as [|x l IH]; intros acc H HI; cbn [foldM length].
    - apply takes_ret. exact HI.
    - rewrite times_S. eapply takes_bind; [apply H, HI|]. intros a Ha. apply IH; auto.
  Qed.
  Lemma dry_foldM {A B} (f : A -> B -> M A) (I : A -> Prop) l acc :
    (forall a b, I a -> takes (f a b) [] I) -> I acc -> takes (foldM f acc l) [] I.
  Proof.
    intros H HI. rewrite <- (times_nil (length l)). apply takes_foldM; auto.
  Qed.
  Lemma dry_mapM {A B} (f : A -> M B) l :
    (forall a, dry (f a)) -> takes (mapM f l) [] (fun r => length r = length l).
  Proof.
    intros H. rewrite <- (times_nil (length l)). eapply takes_weaken; [apply takes_mapM, H|]. intros r [K _]. exact K.
  Qed.

  Lemma takes_rand_mat p d :
    takes (rand_mat p d) (times (p * d) [URand]) (fun l => length l = p).
  Proof.
    rewrite <- times_mul. eapply takes_weaken; [apply takes_replicateM, takes_replicateM, takes_rand|].
    intros l [H _]. exact H.
  Qed.
  Lemma takes_randn_vec d : takes (randn_vec d) (times d [UNormal]) (fun l => length l = d).
  Proof. eapply takes_weaken; [apply takes_replicateM, takes_randn|]. intros l [H _]. exact H. Qed.
  Lemma takes_urange lo hi : takes (urange lo hi) [] (fun _ => True).
  Proof. unfold urange. destruct (frange _ _); [apply takes_ret; exact I|intros s a s' H; discriminate H]. Qed.
  Lemma takes_uniform1 lo hi : takes (uniform1 lo hi) [URand] (fun _ => True).
  Proof. change [URand] with ([] ++ [URand]). eapply takes_bind; [apply takes_urange|]. intros; apply takes_uniform. Qed.
  Lemma takes_uniform_row lo hi d : length lo = d -> length hi = d ->
    takes (uniform_row lo hi) (times d [URand]) (fun l => length l = d).
  Proof.
    intros H1 H2. unfold uniform_row.
    assert (X : length (combine lo hi) = d) by (rewrite combine_length; change vec with (list T) in *; lia).
    rewrite <- X. eapply takes_weaken; [apply takes_mapM; intros b; apply takes_uniform|].
    intros l [H _]. exact H.
  Qed.
  Lemma takes_uniform_vec lo hi d : length lo = d -> length hi = d ->
    takes (uniform_vec lo hi) (times d [URand]) (fun l => length l = d).
  Proof.
    intros H1 H2. change (times d [URand]) with ([] ++ times d [URand]).
    eapply takes_bind; [apply takes_urange|]. intros; apply takes_uniform_row; assumption.
  Qed.
  Lemma takes_uniform_mat n lo hi d : length lo = d -> length hi = d ->
    takes (uniform_mat n lo hi) (times (n * d) [URand]) (fun l => length l = n).
  Proof.
    intros H1 H2. rewrite <- times_mul. rewrite <- (app_nil_l (times n _)).
    eapply takes_bind; [apply takes_urange|]. intros _ _.
    eapply takes_weaken; [apply takes_replicateM, takes_uniform_row; eassumption|]. intros l [H _]. exact H.
  Qed.
  Definition lhs_uses (p d : nat) : list Use := times (p * d) [URand] ++ times d [UPerm p].
  Lemma takes_lhs p d lo hi : takes (lhs p d lo hi) (lhs_uses p d) (fun X => length X = p).
  Proof.
    unfold lhs. eapply takes_bind; [apply takes_rand_mat|]. intros x Hx. cbn zeta.
    eapply takes_end; [apply takes_replicateM, takes_perm|]. intros ps _. apply takes_ret.
    rewrite !map_length, seq_length. reflexivity.
  Qed.

  (** *** Actions without draws *)
  Lemma dry_ret {A} (a : A) : dry (ret a). Proof. apply takes_ret. exact I. Qed.
  Lemma dry_raise {A} e : dry (@raise N E A e). Proof. apply eats_raise. Qed.
  Lemma takes_raise {A} e U (Q : A -> Prop) : takes (raise e) U Q. Proof. apply eats_raise. Qed.
  Lemma dry_raise_if b e : takes (raise_if b e) [] (fun _ => b = false).
  Proof. destruct b; [apply eats_raise|apply takes_ret; reflexivity]. Qed.
  Lemma dry_orelse {A} (o : option A) e : takes (orelse o e) [] (fun a => o = Some a).
  Proof. destruct o; [apply takes_ret; reflexivity|apply eats_raise]. Qed.
  Lemma dry_when b m : dry m -> dry (when b m).
  Proof. intros H. destruct b; [exact H|apply dry_ret]. Qed.
  Lemma dry_np_argmin v : dry (np_argmin v).
  Proof. destruct v; [apply dry_raise|apply dry_ret]. Qed.
  Lemma dry_set_arg X : dry (set_arg X).
  Proof. intros s a s' [= <- <-]. exists []. auto. Qed.
  Lemma dry_rec_alloc r v p m : dry (rec_alloc r v p m).
  Proof.
    unfold rec_alloc. destruct r; [|apply dry_ret]. eapply dry_bind; [apply dry_orelse|].
    intros n _. destruct (m <? 0)%Z; [apply dry_raise|apply dry_ret].
  Qed.
  Lemma dry_rec_write n m it X f b r : dry (rec_write n m it X f b r).
  Proof.
    unfold rec_write. destruct n as [n|]; [|apply dry_ret]. destruct r as [r|]; [|apply dry_ret].
    eapply dry_bind; [|intros q _; apply dry_ret]. unfold rec_put.
    destruct (m <? it)%Z; [apply dry_raise|]. destruct (0 <? n)%Z; [|apply dry_ret].
    eapply dry_bind; [apply dry_orelse|]. intros rows _.
    eapply dry_bind; [apply dry_orelse|]. intros fs _. apply dry_ret.
  Qed.
  Lemma dry_eval_kindM a b c : dry (eval_kindM a b c).
  Proof. unfold eval_kindM. destruct (eval_kind a b c); [apply dry_ret|apply dry_raise]. Qed.
  Lemma dry_unpack b :
    takes (unpack_bounds b) [] (fun q => length (fst q) = nd_len b /\ length (snd q) = nd_len b).
  Proof.
    unfold unpack_bounds. destruct b as [x|v|c rows]; try apply eats_raise.
    do 3 (destruct c as [|c]; try apply eats_raise). apply takes_ret. cbn. rewrite !map_length. auto.
  Qed.

  Section User.
  Hypothesis HG : Gentle.

  Lemma dry_call_fun x : dry (call_fun x).
  Proof.
    intros s a s' Hs. unfold call_fun in Hs. destruct (e_fun x (rs s)) as [[y|n] w] eqn:He; [|discriminate].
    injection Hs as <- <-. exists []. cbn. split; [eapply ge_fun; eauto|auto].
  Qed.
  Lemma dry_call_cb X st : dry (call_cb X st).
  Proof.
    intros s a s' Hs. unfold call_cb in Hs. destruct (e_cb X st (rs s)) as [[n|] w] eqn:He; [discriminate|].
    injection Hs as <- <-. exists []. cbn. split; [eapply ge_cb; eauto|auto].
  Qed.
  Lemma dry_call_scb x st : dry (call_scb x st).
  Proof.
    intros s a s' Hs. unfold call_scb in Hs. destruct (e_scb x st (rs s)) as [[n|] w] eqn:He; [discriminate|].
    injection Hs as <- <-. exists []. cbn. split; [eapply ge_scb; eauto|auto].
  Qed.

  Lemma dry_fill (X : matrix) l (f : vec) :
    takes (foldM (fun f i => y <- call_fun (nth i X []) ;; ret (upd i y f)) f l) []
          (fun g => length g = length f).
  Proof.
    apply (dry_foldM _ (fun g : vec => length g = length f)); [|reflexivity].
    intros g i Hg. eapply dry_bind; [apply dry_call_fun|]. intros y _. apply takes_ret.
    rewrite upd_length. exact Hg.
  Qed.

  (** Evaluating a population draws nothing and keeps the number of rows. *)
  Definition same_len (X : matrix) (q : matrix * vec) : Prop :=
    MpiShape -> length (fst q) = length X /\ length (snd q) = length X.
  Lemma dry_eval m X : takes (eval_pop m X) [] (same_len X).
  Proof.
    destruct m; cbn [eval_pop].
    - eapply dry_bind; [apply dry_mapM; intros x; apply dry_call_fun|]. intros f Hf.
      apply takes_ret. intros _. auto.
    - eapply dry_bind; [|intros f Hf; apply takes_ret; intros _; split; [reflexivity|exact Hf]].
      unfold eval_joblib. eapply (dry_bind _ _ _ (fun _ => True)).
      { intros s a s' [= <- <-]. exists []. auto. }
      intros o _. eapply takes_weaken; [apply dry_fill|]. intros g Hg. cbn in *. rewrite Hg, repeat_length. reflexivity.
    - unfold eval_mpi. eapply (dry_bind _ _ _ (fun Y => exists n, Y = e_bcast n X)).
      { intros s a s' Hs. unfold mpi_bcast in Hs. injection Hs as <- <-. exists []. split; [reflexivity|].
        split; [reflexivity|eauto]. }
      intros Y [n ->]. eapply dry_bind; [apply dry_fill|]. intros g Hg.
      eapply (dry_bind _ _ _ (fun h => exists k, h = e_allreduce k (e_bcast n X) g)).
      { intros s a s' Hs. unfold mpi_allreduce in Hs. injection Hs as <- <-. exists []. split; [reflexivity|].
        split; [reflexivity|eauto]. }
      intros h [k ->]. apply takes_ret. intros [M1 M2]. cbn [fst snd].
      assert (L : length (e_bcast n X) = length X).
      { pose proof (f_equal (@length nat) (M1 n X)) as L. rewrite !map_length in L. exact L. }
      rewrite M2, Hg, repeat_length. auto.
  Qed.

  Lemma dry_selection_sync it (cand : matrix) xb x xf mx xt ft (ev : matrix -> M (matrix * vec)) :
    takes (ev cand) [] (same_len cand) ->
    takes (selection_sync it cand xb x xf mx xt ft ev) []
      (fun s => MpiShape -> length x = length cand -> length xf = length cand ->
                length (ss_x s) = length cand /\ length (ss_xfun s) = length cand).
  Proof.
    intros H. unfold selection_sync. eapply dry_bind; [exact H|]. intros [X f] HX.
    eapply dry_bind; [apply dry_np_argmin|]. intros i _. apply takes_ret.
    intros HM H1 H2. destruct (HX HM) as [K1 K2]. cbn in K1, K2 |- *.
    unfold sel_x, sel_fun. rewrite !map2_length, !combine_length. change vec with (list T) in *. lia.
  Qed.
  Lemma dry_selection_async c xb xbf x xf xt ft i :
    takes (selection_async c xb xbf x xf xt ft i) []
      (fun s => length (sa_x s) = length x /\ length (sa_xfun s) = length xf).
  Proof.
    unfold selection_async. eapply dry_bind; [apply dry_call_fun|]. intros y _. apply takes_ret.
    unfold async_sel. destruct (_ <=? _)%num; [destruct (_ <=? _)%num|]; cbn; rewrite ?upd_length; auto.
  Qed.

  (** *** The loop *)
  Lemma eats_drive {S} (D : Drv S) cb (G : Z -> list Use) (R : Z -> list Use -> Prop)
      (I : Z -> S -> Prop) :
    (forall it s, I it s -> takes (d_step D (it + 1) s) (G (it + 1)%Z) (fun q => I (it + 1)%Z (fst q))) ->
    (forall it s, I it s -> eats (d_post D it s) (fun s' us => R it us /\ I it s')) ->
    forall fl it s, I it s -> eats (drive D cb fl it s) (fun r us => Gens G R it (r_nit r) us).
  Proof.
    intros HS HP. induction fl as [|fl IH]; intros it s HI; cbn [drive]; [apply eats_raise|].
    eapply eats_take; [apply HS, HI|]. intros [s1 st] H1. cbn [fst] in H1.
    eapply eats_dry; [apply dry_when, dry_call_cb|]. intros _ _.
    destruct st as [c|].
    - unfold result. eapply eats_dry; [apply dry_orelse|]. intros msg _. apply eats_ret. cbn.
      rewrite app_nil_r. apply gens_last.
    - eapply eats_bind; [apply HP, H1|]. intros s2 us [HR H2]. eapply eats_weaken; [apply IH, H2|].
      intros r vs HV. cbn. apply gens_more; assumption.
  Qed.
  End User.

  Lemma gens_const G it nit us :
    Gens (fun _ => G) (fun _ u => u = []) it nit us -> us = times (Z.to_nat (nit - it)) G /\ (it < nit)%Z.
  Proof.
    induction 1 as [it|it nit u us -> H [IH L]].
    - replace (Z.to_nat (it + 1 - it)) with 1 by lia. cbn. rewrite app_nil_r. split; [reflexivity|lia].
    - split; [|lia]. cbn. rewrite IH. replace (Z.to_nat (nit - it)) with (S (Z.to_nat (nit - (it + 1)))) by lia.
      reflexivity.
  Qed.
End Spec.

#[global] Arguments times : simpl never.
