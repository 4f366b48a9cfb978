(** The runs of mcmc (sample/mcmc/_mcmc.py) as chains. *)
From Verif Require Import Base Num Env Common DE Sample Hoare EvalRules Steps Best Inst Valid Accept Chain.

(** np.arange(0, d, b) lists the starts of the blocks. *)
Definition nblocks (d b : nat) : nat := (d + b - 1) / b.

Lemma nblocks_S d b : 0 < b ->
  nblocks (S d) b = nblocks d b + (if (d mod b =? 0)%nat then 1 else 0).
Proof.
  intros Hb. unfold nblocks.
  pose proof (Nat.div_mod d b ltac:(lia)) as Hd. pose proof (Nat.mod_upper_bound d b ltac:(lia)).
  set (q := d / b) in *. set (r := d mod b) in *.
  replace (S d + b - 1) with (d + 1 * b) by lia. rewrite Nat.div_add by lia. fold q.
  destruct (Nat.eqb_spec r 0) as [Hr|Hr].
  - assert (H1 : (d + b - 1) / b = q); [|lia].
    symmetry; apply Nat.div_unique with (r := b - 1); nia.
  - assert (H1 : (d + b - 1) / b = q + 1); [|lia].
    symmetry; apply Nat.div_unique with (r := r - 1); nia.
Qed.
Lemma nblocks_mul d b : 0 < b -> d mod b = 0 -> nblocks d b * b = d.
Proof.
  intros Hb H. unfold nblocks. pose proof (Nat.div_mod d b ltac:(lia)) as Hd.
  assert (H1 : (d + b - 1) / b = d / b); [|rewrite H1; lia].
  symmetry; apply Nat.div_unique with (r := b - 1); nia.
Qed.
Lemma nblocks_pos d b : 0 < b -> 0 < d -> 0 < nblocks d b.
Proof. intros. unfold nblocks. apply Nat.div_str_pos. lia. Qed.

Lemma arange_blocks d b : 0 < b ->
  arange 0 d b = map (fun k => k * b) (seq 0 (nblocks d b)).
Proof.
  intros Hb. induction d as [|d IH].
  - unfold nblocks. rewrite Nat.div_small by lia. reflexivity.
  - unfold arange in *. rewrite seq_S, filter_app. cbn [plus]. rewrite IH, nblocks_S by lia.
    rewrite seq_app, map_app. f_equal. cbn [filter plus]. rewrite Nat.sub_0_r. cbn [Nat.leb andb].
    destruct (Nat.eqb_spec (d mod b) 0) as [Hr|Hr]; [|reflexivity].
    cbn [seq map]. rewrite nblocks_mul by auto. reflexivity.
Qed.

Lemma slice_length {A} j k (l : list A) : k <= length l -> length (slice j k l) = k - j.
Proof. intros H. unfold slice. rewrite firstn_length, skipn_length. lia. Qed.
Lemma nth_firstn' {A} i n (l : list A) d : i < n -> nth i (firstn n l) d = nth i l d.
Proof.
  revert n l; induction i as [|i IH]; intros [|n] [|a l] H; cbn; try lia; auto. apply IH; lia.
Qed.
Lemma nth_skipn' {A} i n (l : list A) d : nth i (skipn n l) d = nth (n + i) l d.
Proof.
  revert l; induction n as [|n IH]; intros [|a l]; cbn; auto. destruct i; reflexivity.
Qed.
Lemma slice_nth {A} i j k (l : list A) d : i < k - j -> nth i (slice j k l) d = nth (j + i) l d.
Proof. intros H. unfold slice. rewrite nth_firstn' by lia. apply nth_skipn'. Qed.

Section Prelude.
  Context {N : Num} {E : Env N}.

  Definition early (X : Exn -> St -> Prop) (t : list event) : Prop :=
    forall e s', tr s' = t -> e <> OutOfFuel -> (forall n, e <> UserError n) -> X e s'.

  (** The bounds of the caller. *)
  Definition lows (rows : matrix) : vec := map (fun r => nth 0 r n0) rows.
  Definition ups (rows : matrix) : vec := map (fun r => nth 1 r n0) rows.
  (** The user's step for coordinate k. *)
  Definition user_step (a : SArgs) (k : nat) : T :=
    match s_stepsize a with D0 x => x | D1 v => nth k v n0 | D2 _ _ => n0 end.

  Lemma wp_s_check a (Q : vec * vec -> St -> Prop) (X : Exn -> St -> Prop) s :
    early X (tr s) ->
    (forall rows, s_bounds a = D2 2 rows ->
       match s_x0 a with None => True | Some x => nd_len x = length rows end ->
       Q (lows rows, ups rows) s) ->
    wp (s_check_x0 a) Q X s.
  Proof.
    intros HX HQ. unfold s_check_x0.
    apply wp_bind, wp_raise_if; intros H1; [apply HX; congruence || auto|].
    apply wp_bind, wp_raise_if; intros H2; [apply HX; congruence || auto|].
    apply wp_bind. unfold unpack_bounds.
    destruct (s_bounds a) as [x|v|c rows] eqn:Hb; try (apply wp_raise, HX; congruence || auto).
    destruct c as [|[|[|c]]]; try (apply wp_raise, HX; congruence || auto).
    apply wp_ret. apply wp_bind.
    destruct (s_x0 a) as [[x|v|c m]|].
    - apply wp_raise, HX; congruence || auto.
    - apply wp_raise_if; intros H3; [apply HX; congruence || auto|]. apply wp_ret.
      rewrite negb_false_iff, Nat.eqb_eq in H3. apply (HQ rows); auto.
    - apply wp_raise_if; intros H3; [apply HX; congruence || auto|]. apply wp_ret.
      rewrite negb_false_iff, Nat.eqb_eq in H3. apply (HQ rows); auto.
    - apply wp_ret, wp_ret. apply (HQ rows); auto.
  Qed.

  Lemma wp_s_steps a rows (Q : vec -> St -> Prop) (X : Exn -> St -> Prop) s :
    s_bounds a = D2 2 rows -> early X (tr s) ->
    (forall v s', tr s' = tr s -> length v = length rows ->
       (forall k, k < length rows ->
          nth k v n0 = nmul (user_step a k)
             (nmul (nlit 5 (-1)) (nsub (nth k (ups rows) n0) (nth k (lows rows) n0)))) ->
       match s_stepsize a with D0 _ => True | D1 v => length v = length rows | D2 _ _ => False end ->
       Q v s') ->
    wp (s_steps a (lows rows) (ups rows)) Q X s.
  Proof.
    intros Hb HX HQ. unfold s_steps. rewrite Hb. cbn zeta. cbn [nd_len].
    assert (Hlo : length (lows rows) = length rows) by apply map_length.
    assert (Hup : length (ups rows) = length rows) by apply map_length.
    assert (HH : forall w, length w = length rows ->
      let v := map2 (fun s0 lu => nmul s0 (nmul (nlit 5 (-1)) (nsub (snd lu) (fst lu)))) w
                 (combine (lows rows) (ups rows)) in
      length v = length rows /\ forall k, k < length rows -> nth k v n0 =
         nmul (nth k w n0) (nmul (nlit 5 (-1)) (nsub (nth k (ups rows) n0) (nth k (lows rows) n0)))).
    { intros w Hw v. subst v. split.
      - rewrite map2_length, combine_length. lia.
      - intros k Hk. rewrite (map2_nth _ _ _ _ n0 (n0, n0)); [|lia|rewrite combine_length; lia].
        rewrite combine_nth by lia. reflexivity. }
    destruct (s_stepsize a) as [x|v|c m] eqn:Hs; apply wp_bind, wp_raise_if; intros Hl;
      try (apply HX; congruence || auto); rewrite negb_false_iff, Nat.eqb_eq in Hl.
    - apply wp_bind, wp_when; [discriminate|intros _]. apply wp_ret.
      destruct (HH _ (repeat_length x (length rows))) as [H1 H2].
      apply HQ; auto. intros k Hk. rewrite H2 by auto. f_equal. unfold user_step. rewrite Hs.
      clear -Hk. revert k Hk; induction (length rows) as [|n IH]; intros [|k] Hk; cbn; try lia; auto.
      apply IH; lia.
    - destruct (HH _ Hl) as [H1 H2].
      apply wp_bind, wp_when; intros _; [apply wp_set_arg|]; apply wp_ret; apply HQ; auto;
        intros k Hk; rewrite H2 by auto; unfold user_step; rewrite Hs; reflexivity.
  Qed.

  Lemma wp_s_seed_cb a (Q : unit -> St -> Prop) (X : Exn -> St -> Prop) s :
    early X (tr s) -> (forall s', tr s' = tr s -> argbuf s' = argbuf s -> Q tt s') ->
    wp (s_seed_cb a) Q X s.
  Proof.
    intros HX HQ. unfold s_seed_cb. apply wp_bind.
    assert (Hs : wp (seed (s_seed a)) (fun _ s' => tr s' = tr s /\ argbuf s' = argbuf s) X s)
      by (destruct (s_seed a); unfold wp; cbn; auto).
    eapply wp_post; [exact Hs|]. intros _ s' [H1 H2].
    apply wp_raise_if; intros _; [apply HX; congruence || auto|auto].
  Qed.

  (** the first sample: x0, or a draw from the box *)
  Definition first_sample (a : SArgs) (rows : matrix) (x : vec) : Prop :=
    match s_x0 a with
    | Some (D1 v) => x = v
    | Some _ => False
    | None => Forall2 (fun r v => exists u, isrand u /\
                 v = nadd (nth 0 r n0) (nmul (nsub (nth 1 r n0) (nth 0 r n0)) u)) rows x
    end.

  Lemma quiet_uniform_rows rows :
    quiet (uniform_vec (lows rows) (ups rows))
          (fun x => Forall2 (fun r v => exists u, isrand u /\
                 v = nadd (nth 0 r n0) (nmul (nsub (nth 1 r n0) (nth 0 r n0)) u)) rows x).
  Proof.
    eapply quiet_bind; [apply quiet_urange|]. intros _ _.
    unfold uniform_row. induction rows as [|r rows IH]; cbn.
    - apply quiet_ret; constructor.
    - eapply quiet_bind.
      + unfold uniform. eapply quiet_bind; [apply quiet_rand'|]. intros u Hu. apply quiet_ret.
        instantiate (1 := fun v => exists u, isrand u /\
          v = nadd (nth 0 r n0) (nmul (nsub (nth 1 r n0) (nth 0 r n0)) u)).
        cbn. eauto.
      + intros v Hv. eapply quiet_bind; [exact IH|]. intros vs Hvs. apply quiet_ret.
        constructor; auto.
  Qed.

  Lemma wp_s_first a rows (Q : vec -> St -> Prop) (X : Exn -> St -> Prop) s :
    match s_x0 a with None => True | Some x => nd_len x = length rows end ->
    early X (tr s) ->
    (forall x s', tr s' = tr s -> length x = length rows -> first_sample a rows x ->
                  (1 <= s_maxiter a)%Z -> Q x s') ->
    wp (s_first a (lows rows) (ups rows)) Q X s.
  Proof.
    intros Hx HX HQ. unfold s_first.
    apply wp_bind, wp_raise_if; intros H1; [apply HX; congruence || auto|]. apply Z.ltb_ge in H1.
    assert (Hk : forall x s', tr s' = tr s -> length x = length rows -> first_sample a rows x ->
                 wp (raise_if (s_maxiter a =? 0)%Z IndexError ;;; ret x) Q X s').
    { intros x s' H2 H3 H4. apply wp_bind, wp_raise_if; intros H5; [apply HX; congruence || auto|].
      apply wp_ret. apply Z.eqb_neq in H5. apply HQ; auto. lia. }
    unfold first_sample in *. destruct (s_x0 a) as [[x|v|c m]|].
    - apply wp_bind, wp_raise, HX; congruence || auto.
    - apply wp_bind, wp_ret. apply Hk; auto.
    - apply wp_bind, wp_raise, HX; congruence || auto.
    - eapply wp_quiet; [apply quiet_uniform_rows| |].
      + intros x s' H2 _ H3. apply Hk; auto. symmetry; eapply Forall2_length; eauto.
      + intros; apply HX; auto.
  Qed.

  Lemma wp_s_first_cb a x f (Q : unit -> St -> Prop) (X : Exn -> St -> Prop) s :
    (forall s', tr s' = tr s ++ scbe0 a x f -> Q tt s') ->
    (forall n s', ncalls (tr s') = ncalls (tr s) -> X (UserError n) s') ->
    wp (s_first_cb a x f) Q X s.
  Proof.
    intros HQ HX. unfold s_first_cb. apply wp_when; intros Hc.
    - apply wp_call_scb.
      2:{ intros n w _. apply HX. cbn. rewrite ncalls_app. cbn. lia. }
      intros w _. apply HQ. unfold scbe0. rewrite Hc. reflexivity.
    - apply HQ. unfold scbe0. rewrite Hc, app_nil_r. reflexivity.
  Qed.
End Prelude.

Section Mcmc.
  Context {N : Num} {E : Env N}.

  (** ** One step of mcmc *)

  Definition rejects (a : SArgs) : bool :=
    match s_constraints a with Some c => String.eqb c "Reject" | None => false end.

  Lemma in_space_rejects a y lo hi :
    in_search_space y lo hi (s_constraints a) = negb (rejects a).
  Proof.
    unfold in_search_space, rejects. destruct (s_constraints a) as [c|]; auto.
  Qed.

  (** [y] is [x] with the coordinates j..j+b-1 perturbed by normal deviates. *)
  Definition block_proposal (steps : vec) (j b : nat) (x y : vec) : Prop :=
    length y = length x /\
    exists z, length z = b /\ Forall israndn z /\
      forall k, k < length x ->
        nth k y n0 = if (j <=? k) && (k <? j + b)
                     then nadd (nth k x n0) (nmul (nth (k - j) z n0) (nth k steps n0))
                     else nth k x n0.

  Definition mcR (a : SArgs) (d b : nat) (steps : vec) : StepRel :=
    fun X F acc y fy bb evs =>
      let j := (length acc mod nblocks d b) * b in
      j + b <= d /\
      block_proposal steps j b (lastx X) y /\
      (if rejects a then bb = false
       else exists u, isrand u /\ bb = metropolis (nsub (lastf F) fy) u) /\
      exists imin fmin,
        let X' := X ++ [if bb then y else lastx X] in
        let F' := F ++ [if bb then fy else lastf F] in
        BestAcc X' F' (acc ++ [bb]) imin fmin /\
        evs = (if rejects a then [] else [EEval y (inl fy)]) ++ scbe a X' F' (acc ++ [bb]) imin.

  Variables (A : MCArgs) (rows : matrix) (b : nat) (steps : vec) (x0 : vec) (f0 : T) (t0 : list event).
  Let a := mca A.
  Let d := length rows.
  Let P := mkMCParams d b (lows rows) (ups rows) steps (s_maxiter a) a.
  Let R := mcR a d b steps.
  Hypothesis Hb : 1 <= b.
  Hypothesis Hsteps : length steps = d.
  Hypothesis Hx0 : length x0 = d.
  Context {L : OrdLaws num_arith}.

  Definition partial_block (nsteps : nat) : Prop := nsteps mod nblocks d b * b + b > d.

  (** exceptions during the loop *)
  Definition mcX (e : Exn) (s : St) : Prop :=
    (exists n, e = UserError n) \/
    (e = ValueError /\ exists X F acc, Traj R x0 f0 t0 X F acc (tr s) /\
        (Z.of_nat (length X) < s_maxiter a)%Z /\ partial_block (length acc)).

  Lemma R_len X F acc t : Traj R x0 f0 t0 X F acc t -> Forall (fun x : vec => length x = d) X.
  Proof.
    induction 1 as [|X F acc t y fy bb evs HT IH HR]; [repeat constructor; auto|].
    apply Forall_app; split; auto. constructor; [|constructor].
    assert (Hl : length (lastx X) = d).
    { unfold lastx. rewrite Forall_forall in IH. apply IH, nth_In.
      apply Traj_len in HT. lia. }
    destruct bb; auto. destruct HR as (_ & [Hy _] & _). congruence.
  Qed.

  Lemma lastx_len X F acc t : Traj R x0 f0 t0 X F acc t -> length (lastx X) = d.
  Proof.
    intros HT. pose proof (R_len _ _ _ _ HT) as HF. rewrite Forall_forall in HF.
    apply HF, nth_In. apply Traj_len in HT. unfold lastx in *. lia.
  Qed.

  Lemma wp_mc_propose j x (Q : vec -> St -> Prop) (Xc : Exn -> St -> Prop) s :
    length x = d -> j < d ->
    (forall y s', tr s' = tr s -> argbuf s' = argbuf s -> j + b <= d ->
                  block_proposal steps j b x y -> Q y s') ->
    (forall s', tr s' = tr s -> d < j + b -> Xc ValueError s') ->
    wp (mc_propose P j x) Q Xc s.
  Proof.
    intros Hx Hj HQ HX. unfold mc_propose. cbn zeta. cbn [mc_d mc_b mc_step P].
    eapply wp_quietT; [apply quietT_randn_vec|].
    intros z s' Ht Ha [Hz HzF].
    apply wp_bind, wp_raise_if; intros Hc.
    - apply HX; auto. rewrite negb_true_iff, Nat.eqb_neq in Hc.
      destruct (Nat.lt_ge_cases d (j + b)) as [H|H]; auto. exfalso. apply Hc.
      rewrite slice_length; lia.
    - rewrite negb_false_iff, Nat.eqb_eq in Hc.
      assert (Hf : j + b <= d).
      { destruct (Nat.lt_ge_cases d (j + b)) as [H|H]; auto. exfalso.
        unfold slice in Hc. rewrite firstn_length, skipn_length in Hc. lia. }
      replace (Nat.min d (j + b - 1) - j + 1) with b in * by lia.
      replace (Nat.min d (j + b - 1) + 1) with (j + b) in * by lia.
      apply wp_ret. apply HQ; auto.
      assert (Hs1 : length (slice j (j + b) x) = b) by (rewrite slice_length; lia).
      assert (Hm : length (vmul z (slice j (j + b) steps)) = b)
        by (unfold vmul; rewrite map2_length; lia).
      assert (Hv : length (vadd (slice j (j + b) x) (vmul z (slice j (j + b) steps))) = b)
        by (unfold vadd; rewrite map2_length; lia).
      split.
      + rewrite !app_length, firstn_length, skipn_length, Hv. lia.
      + exists z. split; auto. split; auto. intros k Hk.
        destruct (Nat.leb_spec j k) as [H1|H1]; cbn [andb].
        * rewrite app_nth2 by (rewrite firstn_length; lia).
          rewrite firstn_length. replace (Nat.min j (length x)) with j by lia.
          destruct (Nat.ltb_spec k (j + b)) as [H2|H2].
          -- rewrite app_nth1 by lia. unfold vadd, vmul.
             rewrite (map2_nth _ _ _ _ n0 n0) by (lia || rewrite map2_length; lia).
             rewrite (map2_nth _ _ _ _ n0 n0) by lia.
             rewrite !slice_nth by lia. replace (j + (k - j)) with k by lia. reflexivity.
          -- rewrite app_nth2 by lia. rewrite Hv, nth_skipn'. f_equal. lia.
        * rewrite app_nth1 by (rewrite firstn_length; lia). apply nth_firstn'. lia.
  Qed.

  Lemma wp_mc_move j c acc (Q : Chain -> St -> Prop) s :
    Rep R x0 f0 t0 c acc (tr s) -> j < d -> j = length acc mod nblocks d b * b ->
    (Z.of_nat (length (ch_x c)) < s_maxiter a)%Z ->
    (forall c' bb s', Rep R x0 f0 t0 c' (acc ++ [bb]) (tr s') -> Q c' s') ->
    wp (mc_move P j c) Q mcX s.
  Proof.
    intros HR Hj Hjm Hlt HQ. unfold mc_move. apply wp_bind.
    pose proof (rp_traj _ _ _ _ _ _ _ HR) as HT.
    apply wp_mc_propose; [exact (lastx_len _ _ _ _ HT)|exact Hj| |].
    2:{ intros s' Ht Hd. right. split; auto. exists (ch_x c), (ch_f c), acc. rewrite Ht.
        repeat split; auto. unfold partial_block. lia. }
    intros y s' Ht _ Hfit Hy. apply wp_bind.
    cbn [mc_lower mc_upper mc_args P]. rewrite in_space_rejects.
    destruct (rejects a) eqn:Hrej; cbn [negb].
    - apply wp_ret. apply wp_bind.
      apply (wp_s_cb a (ch_reject c) (acc ++ [false])).
      + cbn. rewrite nacc_snoc, (rp_acc _ _ _ _ _ _ _ HR). lia.
      + intros s'' Ht' _. apply wp_ret. apply (HQ _ false). rewrite Ht', Ht.
        apply (rep_reject R _ _ _ _ _ _ y n0); auto. unfold R, mcR. rewrite Hrej, <- Hjm.
        repeat split; auto; try apply Hy. exists (ch_imin c), (ch_fmin c). cbn zeta. split; [|reflexivity].
        apply BestAcc_reject; [apply (Traj_len _ _ _ _ _ _ _ _ HT)|apply HR].
      + left; eauto.
    - apply wp_bind. apply wp_call_fun; [|left; eauto]. intros fy w _.
      eapply wp_quietT; [apply quietT_rand|]. intros u s1 Ht1 _ Hu. cbn [tr] in Ht1.
      apply wp_ret. apply wp_bind.
      destruct (metropolis (nsub (ch_last_f c) fy) u) eqn:Hm.
      + apply (wp_s_cb a _ (acc ++ [true])).
        * unfold ch_accept. destruct (nltb fy (ch_fmin c)); cbn;
            rewrite nacc_snoc, (rp_acc _ _ _ _ _ _ _ HR); lia.
        * intros s'' Ht' _. apply wp_ret. apply (HQ _ true). rewrite Ht', Ht1, Ht, <- app_assoc.
          apply rep_accept; auto. unfold R, mcR. rewrite Hrej, <- Hjm.
          repeat split; auto; try apply Hy; [exists u; auto|].
          pose proof (rep_accept (fun _ _ _ _ _ _ _ => True) x0 f0 t0 c acc (tr s) y fy []) as HA.
          destruct (Traj_len _ _ _ _ _ _ _ _ HT) as [HlX HlF].
          pose proof (BestAcc_accept _ _ _ _ _ y fy HlX HlF (rp_best _ _ _ _ _ _ _ HR)) as HB.
          eexists; eexists. split; [exact HB|].
          unfold ch_accept. destruct (nltb fy (ch_fmin c)); reflexivity.
        * left; eauto.
      + apply (wp_s_cb a _ (acc ++ [false])).
        * cbn. rewrite nacc_snoc, (rp_acc _ _ _ _ _ _ _ HR). lia.
        * intros s'' Ht' _. apply wp_ret. apply (HQ _ false). rewrite Ht', Ht1, Ht, <- app_assoc.
          apply (rep_reject R _ _ _ _ _ _ y fy); auto. unfold R, mcR. rewrite Hrej, <- Hjm.
          repeat split; auto; try apply Hy; [exists u; auto|].
          exists (ch_imin c), (ch_fmin c). cbn zeta. split; [|reflexivity].
          apply BestAcc_reject; [apply (Traj_len _ _ _ _ _ _ _ _ HT)|apply HR].
        * left; eauto.
  Qed.

  Lemma wp_mc_inner base : forall js pre c acc s,
    arange 0 d b = pre ++ js -> Rep R x0 f0 t0 c acc (tr s) ->
    length acc = base * nblocks d b + length pre ->
    (Z.of_nat (length (ch_x c)) < s_maxiter a)%Z ->
    wp (mc_inner P js c)
       (fun c' s' => exists acc', Rep R x0 f0 t0 c' acc' (tr s') /\ length acc + (if js then 0 else 1) <= length acc' /\
          (Z.of_nat (length (ch_x c')) = s_maxiter a \/
           ((Z.of_nat (length (ch_x c')) < s_maxiter a)%Z /\
            length acc' = base * nblocks d b + nblocks d b)))
       mcX s.
  Proof.
    induction js as [|j js IH]; intros pre c acc s Hpre HR Hl Hlt; cbn [mc_inner].
    - apply wp_ret. exists acc. split; auto. split; [lia|]. right. split; auto.
      rewrite app_nil_r in Hpre. rewrite Hl, <- Hpre, arange_blocks, map_length, seq_length by lia.
      reflexivity.
    - assert (Hlen : length (arange 0 d b) = nblocks d b)
        by (rewrite arange_blocks, map_length, seq_length by lia; reflexivity).
      assert (Hpl : length pre < nblocks d b).
      { rewrite <- Hlen, Hpre, app_length. cbn. lia. }
      assert (Hj : j = length pre * b).
      { assert (H : nth (length pre) (arange 0 d b) 0 = j)
          by (rewrite Hpre, app_nth2, Nat.sub_diag by lia; reflexivity).
        rewrite <- H, arange_blocks by lia.
        rewrite (nth_indep _ 0 (0 * b)) by (rewrite map_length, seq_length; lia).
        rewrite (map_nth (fun k => k * b)), seq_nth by lia. reflexivity. }
      assert (Hmod : length acc mod nblocks d b = length pre).
      { rewrite Hl, Nat.add_comm, Nat.mod_add by lia. apply Nat.mod_small; lia. }
      apply wp_bind.
      eapply wp_mc_move; [exact HR| | |exact Hlt|].
      + apply (arange_lt 0 d b). rewrite Hpre. apply in_or_app. right. left. reflexivity.
      + rewrite Hmod. exact Hj.
      + intros c' bb s' HR'. unfold mc_full. cbn [mc_maxiter P].
        pose proof (Traj_len _ _ _ _ _ _ _ _ (rp_traj _ _ _ _ _ _ _ HR)) as [HlX _].
        pose proof (Traj_len _ _ _ _ _ _ _ _ (rp_traj _ _ _ _ _ _ _ HR')) as [HlX' _].
        rewrite app_length in HlX'. cbn in HlX'.
        destruct (Z.eqb_spec (Z.of_nat (length (ch_x c'))) (s_maxiter a)) as [He|He].
        * apply wp_ret. exists (acc ++ [bb]). split; auto. rewrite app_length. cbn. split; [lia|]. left; auto.
        * eapply wp_post; [eapply (IH (pre ++ [j])); [rewrite <- app_assoc; exact Hpre|exact HR'| |lia]|].
          -- rewrite !app_length. cbn. lia.
          -- cbn. intros c'' s'' (acc' & H1 & H2 & H3). exists acc'. split; auto. split; auto.
             rewrite app_length in H2. cbn in H2. lia.
  Qed.

  (** ** The loop: [n] sweeps suffice when there is a coordinate *)
  Lemma wp_mc_outer : forall fl c acc s k,
    0 < d -> Rep R x0 f0 t0 c acc (tr s) -> (Z.of_nat (length (ch_x c)) <= s_maxiter a)%Z ->
    ((Z.of_nat (length (ch_x c)) < s_maxiter a)%Z -> length acc = k * nblocks d b) ->
    (s_maxiter a <= Z.of_nat fl + Z.of_nat (length (ch_x c)))%Z ->
    wp (mc_outer P fl c)
       (fun c' s' => exists acc', Rep R x0 f0 t0 c' acc' (tr s') /\
          Z.of_nat (length (ch_x c')) = s_maxiter a) mcX s.
  Proof.
    induction fl as [|fl IH]; intros c acc s k Hd HR Hle Hk Hf; cbn [mc_outer]; cbn [mc_maxiter P].
    - replace (Z.of_nat (length (ch_x c)) <? s_maxiter a)%Z with false
        by (symmetry; apply Z.ltb_ge; lia).
      apply wp_ret. exists acc. split; auto. lia.
    - destruct (Z.ltb_spec (Z.of_nat (length (ch_x c))) (s_maxiter a)) as [Hlt|Hge].
      + apply wp_bind. cbn [mc_d mc_b P].
        eapply wp_post; [apply (wp_mc_inner k (arange 0 d b) [] c acc s)|]; auto.
        * cbn. rewrite Hk by auto. lia.
        * cbn beta. intros c' s' (acc' & HR' & Hl & Hc).
          pose proof (Traj_len _ _ _ _ _ _ _ _ (rp_traj _ _ _ _ _ _ _ HR)) as [HlX _].
          pose proof (Traj_len _ _ _ _ _ _ _ _ (rp_traj _ _ _ _ _ _ _ HR')) as [HlX' _].
          assert (Hne : arange 0 d b <> []).
          { rewrite arange_blocks by lia. pose proof (nblocks_pos d b ltac:(lia) Hd).
            destruct (nblocks d b); [lia|discriminate]. }
          destruct (arange 0 d b) as [|j0 js0] eqn:Hja; [congruence|].
          apply (IH c' acc' s' (S k)); auto.
          -- destruct Hc as [Hc|[Hc _]]; lia.
          -- intros Hlt'. destruct Hc as [Hc|[_ Hc]]; [lia|]. lia.
          -- lia.
      + apply wp_ret. exists acc. split; auto. lia.
  Qed.
End Mcmc.

Section McmcRun.
  Context {N : Num} {E : Env N} {L : OrdLaws num_arith}.

  (** The number of coordinates moved at once. *)
  Definition block_size (A : MCArgs) (d b : nat) : Prop :=
    exists z, ntrunc (nmul (mca_perc A) (nN d)) = Some z /\ b = Z.to_nat (Z.max 1 z).

  Definition scaled_steps (a : SArgs) (rows : matrix) (steps : vec) : Prop :=
    length steps = length rows /\
    forall k, k < length rows ->
      nth k steps n0 = nmul (user_step a k)
        (nmul (nlit 5 (-1)) (nsub (nth k (ups rows) n0) (nth k (lows rows) n0))).

  (** The setting of a run: what the arguments determine, and the first sample. *)
  Record McSet (A : MCArgs) (rows : matrix) (b : nat) (steps x : vec) (f : T) (t0 : list event) : Prop := {
    ms_bounds : s_bounds (mca A) = D2 2 rows;
    ms_b : block_size A (length rows) b;
    ms_steps : scaled_steps (mca A) rows steps;
    ms_first : first_sample (mca A) rows x;
    ms_len : length x = length rows;
    ms_mx : (1 <= s_maxiter (mca A))%Z;
    ms_t0 : t0 = EEval x (inl f) :: scbe0 (mca A) x f }.

  Record McRun (A : MCArgs) rows b steps x f t0 X F acc imin fmin (res : SampRes) (t : list event) : Prop := {
    mr_set : McSet A rows b steps x f t0;
    mr_traj : Traj (mcR (mca A) (length rows) b steps) x f t0 X F acc t;
    mr_len : Z.of_nat (length X) = s_maxiter (mca A);
    mr_best : BestAcc X F acc imin fmin;
    mr_res : res = {| sr_x := nth imin X []; sr_fun := fmin; sr_nit := s_maxiter (mca A);
                      sr_accept := ndiv (nZ (Z.of_nat (nacc acc))) (nZ (s_maxiter (mca A)));
                      sr_nfev := None;
                      sr_all := if s_return_all (mca A) then Some (X, F) else None |} }.

  Lemma block_size_pos A d b : block_size A d b -> 1 <= b.
  Proof. intros (z & _ & ->). lia. Qed.

  Lemma mcmc_wp A w a0 : 0 < nd_len (s_bounds (mca A)) ->
    wp (mcmc_sample A)
       (fun res s => exists rows b steps x f t0 X F acc imin fmin,
          McRun A rows b steps x f t0 X F acc imin fmin res (tr s))
       (fun e s => e <> OutOfFuel /\ (tr s = [] \/ (exists n, e = UserError n) \/
          exists rows b steps x f t0, McSet A rows b steps x f t0 /\
            e = ValueError /\ exists X F acc,
              Traj (mcR (mca A) (length rows) b steps) x f t0 X F acc (tr s) /\
              (Z.of_nat (length X) < s_maxiter (mca A))%Z /\
              partial_block rows b (length acc)))
       (mkSt w [] a0).
  Proof.
    intros Hd. unfold mcmc_sample, mcmc_fuel. cbn zeta.
    assert (HX : early (fun e s => e <> OutOfFuel /\ (tr s = [] \/ (exists n, e = UserError n) \/
          exists rows b steps x f t0, McSet A rows b steps x f t0 /\
            e = ValueError /\ exists X F acc,
              Traj (mcR (mca A) (length rows) b steps) x f t0 X F acc (tr s) /\
              (Z.of_nat (length X) < s_maxiter (mca A))%Z /\
              partial_block rows b (length acc))) []) by (intros e s' Ht He _; auto).
    apply wp_bind, wp_s_check; [exact HX|]. intros rows Hb Hx0.
    apply wp_bind. apply wp_s_steps; [exact Hb|exact HX|]. intros steps s1 Ht1 Hsl Hsn _. cbn [tr] in Ht1.
    apply wp_bind, wp_raise_if; intros _; [apply HX; congruence || auto|].
    apply wp_bind. destruct (ntrunc _) as [z|] eqn:Hz; [|apply wp_raise, HX; congruence || auto].
    apply wp_ret. apply wp_bind, wp_s_seed_cb; [rewrite Ht1; exact HX|].
    intros s2 Ht2 _. rewrite Ht1 in Ht2.
    apply wp_bind, wp_s_first; [exact Hx0|rewrite Ht2; exact HX|].
    intros x s3 Ht3 Hxl Hfs Hmx. rewrite Ht2 in Ht3.
    rewrite Hb in *. cbn [nd_len] in *.
    apply wp_bind, wp_call_fun.
    2:{ intros n w' _. split; [discriminate|]. right; left; eauto. }
    intros f w' _. rewrite Ht3. cbn [app].
    apply wp_bind, wp_s_first_cb.
    2:{ intros n s' _. split; [discriminate|]. right; left; eauto. }
    intros s4 Ht4. cbn [tr app] in Ht4.
    set (b := Z.to_nat (Z.max 1 z)).
    assert (HS : McSet A rows b steps x f (tr s4)).
    { constructor; auto.
      - exists z; auto.
      - split; auto. }
    apply wp_bind. eapply wp_conseq.
    - apply (wp_mc_outer A rows b steps x f (tr s4)) with (acc := []) (k := 0); auto;
        [subst b; lia|apply Rep_init|cbn; lia].
    - cbn beta. intros c s5 (acc & HR & Hl). apply wp_ret.
      exists rows, b, steps, x, f, (tr s4), (ch_x c), (ch_f c), acc, (ch_imin c), (ch_fmin c).
      destruct HR as [HT Hac HB]. constructor; auto.
      rewrite Hac. reflexivity.
    - cbn beta. intros e s5 [[n ->]|(-> & X & F & acc & HT & Hlt & Hp)].
      + split; [discriminate|]. right; left; eauto.
      + split; [discriminate|]. right; right. exists rows, b, steps, x, f, (tr s4).
        split; auto. split; auto. exists X, F, acc. auto.
  Qed.

  Lemma mcmc_run A w a0 res st' :
    0 < nd_len (s_bounds (mca A)) -> exec (mcmc_sample A) w a0 = (inl res, st') ->
    exists rows b steps x f t0 X F acc imin fmin,
      McRun A rows b steps x f t0 X F acc imin fmin res (tr st').
  Proof. intros Hd H. exact (wp_elim _ _ _ _ _ _ (mcmc_wp A w a0 Hd) H). Qed.
End McmcRun.
