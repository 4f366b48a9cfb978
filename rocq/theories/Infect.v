(** C83: NaN coordinates in pso (and cpso without competition). *)
From Coq Require Import Permutation.
From Verif Require Import Base Num Env Common DE CPSO NA Sample Hoare EvalRules Gen Steps Hist Runs Best
  Inst HistFacts HistBest PropPop Laws Safe Feas CmaStop Trial Restart Explore Flight Dims Wall Poison.

Section Infect.
  Context {N : Num} {E : Env N} {L : OrdLaws num_arith} {W : WallLaws}.
  Local Notation "v '@' j" := (nth j v n0) (at level 9, no associativity).
  Local Notation row X i := (nth i X ([] : list T)).

  (** ** Specification *)
  (** point and value of evaluation [n] *)
  Definition pnt (l : list (list T * T)) (n : nat) : vec := fst (nth n l ([], n0)).
  Definition valu (l : list (list T * T)) (n : nat) : T := snd (nth n l ([], n0)).
  (** evaluation [k] is the only best one of the first [p] *)
  Definition OnlyBest (p : nat) (l : list (list T * T)) (k : nat) : Prop :=
    k < p /\ isnum (valu l k) /\ forall i, i < p -> i <> k -> nltb (valu l k) (valu l i) = true.
  Record Infected (p : nat) (l : list (list T * T)) (x : vec) : Prop := {
    (* a particle keeps its NaN coordinates *)
    in_keeps : forall j n, n + p < length l -> NanAt j (pnt l n) -> NanAt j (pnt l (n + p));
    (* and gives them to all others if it is the best one at the start *)
    in_spreads : forall j k, OnlyBest p l k -> NanAt j (pnt l k) ->
      (forall n, p <= n < length l -> NanAt j (pnt l n)) /\ NanAt j x }.

  (** ** One move *)
  Lemma shrunk_nan con rows x u v j : j < length u -> Shrunk con rows x u v -> ~ isnum u@j -> ~ isnum v@j.
  Proof.
    intros Hj HS Hn. unfold Shrunk in HS. destruct con as [c|]; [|subst; exact Hn].
    destruct HS as (_ & q & Hq & _). rewrite Hq by exact Hj. apply wl_mul_l, Hn.
  Qed.
  Lemma move_keeps A rows x v b g x' v' j : j < length rows -> Move A rows x v b g x' v' -> ~ isnum x@j -> NanAt j x'.
  Proof.
    intros Hj (u & _ & _ & Hl & Hx) Hn. split; [congruence|]. rewrite Hx by exact Hj. apply wl_add_l, Hn.
  Qed.
  Lemma move_spreads A rows x v b g x' v' j : j < length rows -> Move A rows x v b g x' v' -> ~ isnum g@j -> NanAt j x'.
  Proof.
    intros Hj (u & (Hul & r1 & r2 & _ & _ & Hu) & HS & Hl & Hx) Hn. split; [congruence|]. rewrite Hx by exact Hj.
    apply wl_add_r, (shrunk_nan _ _ _ _ _ _ ltac:(rewrite Hul; exact Hj) HS). rewrite Hu by exact Hj.
    apply wl_add_r, wl_mul_r, wl_sub_l, Hn.
  Qed.

  (** ** A flight *)
  Section Fl.
    Variables (A : CPSOArgs) (rows : matrix) (p : nat) (deferred : bool).
    Hypotheses (Hcomp : pa_competitivity A = None) (Hp : 0 < p).

    Record Seen (j : nat) (X : list (list T)) (l : list (list T * T)) : Prop := {
      se_len : p <= length l;
      se_gen : deferred = true -> length l mod p = 0;
      se_Xl : length X = p;
      se_X : forall i, i < p -> exists k, k < length l <= k + p /\ k mod p = i /\ row X i = pnt l k;
      se_keeps : forall n, n + p < length l -> NanAt j (pnt l n) -> NanAt j (pnt l (n + p)) }.
    Record Sick (j k0 : nat) (B : list (list T)) (f g : list T) (l : list (list T * T)) : Prop := {
      si_len : length B = p /\ length f = p;
      si_num : Forall isnum f;
      si_B : forall i, i < p -> NanAt j (row B i) \/ nltb (valu l k0) f@i = true;
      si_k0 : nleb f@k0 (valu l k0) = true;
      si_g : NanAt j g;
      si_l : forall n, p <= n < length l -> NanAt j (pnt l n) }.

    Lemma pnt_old l l' n : n < length l -> pnt (l ++ l') n = pnt l n.
    Proof. intro H. unfold pnt. rewrite app_nth1 by exact H. reflexivity. Qed.
    Lemma valu_old l l' n : n < length l -> valu (l ++ l') n = valu l n.
    Proof. intro H. unfold valu. rewrite app_nth1 by exact H. reflexivity. Qed.
    Lemma combine_at (X : list (list T)) (y : list T) i : length y = length X -> nth i (combine X y) ([], n0) = (row X i, y@i).
    Proof. intros H. apply combine_nth. auto. Qed.
    Lemma same_class k n : k < n <= k + p -> n mod p = k mod p -> n = k + p.
    Proof.
      intros H1 H2. pose proof (Nat.div_mod k p ltac:(lia)) as D1. pose proof (Nat.div_mod n p ltac:(lia)) as D2.
      rewrite H2 in D2. set (a := n / p) in *. set (b := k / p) in *.
      assert (Hba : b < a) by (apply (Nat.mul_lt_mono_pos_l p); lia).
      assert (Hab : a <= S b) by (apply (Nat.mul_le_mono_pos_l _ _ p); lia).
      replace a with (S b) in D2 by lia. lia.
    Qed.

    Lemma seen_flight j ready X V B f g gf l : j < length rows ->
      Flight A rows p deferred true ready X V B f g gf l -> Seen j X l.
    Proof.
      intro Hj.
      induction 1 as [X f k l HX HXd Hf Hpm Hl Hk
                     |X V B f g gf l X' V' y B' f' k l' Hd HFl IH HX' HV' Hy HB' Hf' Hmv Hpm Hl Hbb Hff Hk
                     |X V B f g gf l i x v y B' f' g' gf' Hd HFl IH Hi HM Hbf Hg
                     |X V B f g gf l X' V' B' f' HFl IH HR]; unfold matrix, vec in *.
      - rewrite (Hl eq_refl). assert (HL : length (combine X f) = p) by (rewrite combine_length; unfold matrix, vec in *; lia).
        constructor; unfold matrix, vec in *; rewrite ?HL; auto; try lia.
        + intros _. apply Nat.mod_same. lia.
        + intros i Hi. exists i. split; [lia|]. split; [apply Nat.mod_small, Hi|].
          unfold pnt. rewrite combine_at by (unfold matrix, vec in *; congruence). reflexivity.
      - rewrite (Hl eq_refl). assert (HL : length (combine X' y) = p) by (rewrite combine_length; unfold matrix, vec in *; lia).
        destruct IH as [I1 I2 I3 I4 I5]. unfold matrix, vec in *. specialize (I2 Hd).
        assert (Hnew : forall i, i < p -> pnt (l ++ combine X' y) (length l + i) = row X' i).
        { intros i Hi. unfold pnt. rewrite app_nth2_plus, combine_at by (unfold matrix, vec in *; congruence). reflexivity. }
        assert (Hcl : forall i, i < p -> (length l + i) mod p = i).
        { intros i Hi. rewrite <- Nat.add_mod_idemp_l, I2 by lia. apply Nat.mod_small, Hi. }
        constructor; unfold matrix, vec in *; rewrite ?app_length, ?HL; auto; try lia.
        + intros _. rewrite <- Nat.add_mod_idemp_l, I2 by lia. apply Nat.mod_same. lia.
        + intros i Hi. exists (length l + i). split; [lia|]. split; [apply Hcl, Hi|]. symmetry. apply Hnew, Hi.
        + intros n Hn HN. destruct (Nat.lt_ge_cases (n + p) (length l)) as [Hlt|Hge].
          { rewrite pnt_old by exact Hlt. rewrite pnt_old in HN by lia. apply I5; auto. }
          set (i := n + p - length l). assert (Hi : i < p) by (unfold i; lia).
          replace (n + p) with (length l + i) by (unfold i; lia). rewrite Hnew by exact Hi.
          rewrite pnt_old in HN by lia.
          apply (move_keeps _ _ _ _ _ _ _ _ _ Hj (Hmv i Hi)).
          destruct (I4 i Hi) as (k' & Hk1 & Hk2 & ->).
          assert (Hk' : length l + i = k' + p).
          { assert (n mod p = i) by (rewrite <- (Hcl i Hi); replace (length l + i) with (n + 1 * p) by (unfold i; lia);
              symmetry; apply Nat.mod_add; lia).
            destruct (Nat.lt_trichotomy k' n) as [H0|[->|H0]]; [|unfold i; lia|].
            - pose proof (same_class k' n ltac:(lia) ltac:(congruence)). lia.
            - pose proof (same_class n k' ltac:(lia) ltac:(congruence)). lia. }
          replace k' with n by (unfold i in Hk'; lia). apply HN.
      - destruct IH as [I1 I2 I3 I4 I5]. unfold matrix, vec in *.
        assert (Hip : i < p) by (subst i; apply Nat.mod_upper_bound; lia).
        assert (Hnew : pnt (l ++ [(x, y)]) (length l) = x).
        { unfold pnt. rewrite app_nth2, Nat.sub_diag by lia. reflexivity. }
        constructor; unfold matrix, vec in *; rewrite ?app_length; cbn [length]; auto; try lia.
        + intro. congruence.
        + rewrite upd_length. exact I3.
        + intros q Hq. destruct (Nat.eq_dec q i) as [->|Hne].
          * exists (length l). split; [lia|]. split; [auto|]. rewrite upd_nth_same by (unfold matrix, vec in *; lia). auto.
          * destruct (I4 q Hq) as (k & Hk1 & Hk2 & Hk3). exists k.
            assert (length l <> k + p).
            { intro He. apply Hne. rewrite Hi, He, <- Hk2. replace (k + p) with (k + 1 * p) by lia.
              symmetry. apply Nat.mod_add. lia. }
            split; [lia|]. split; [exact Hk2|]. rewrite upd_nth_other by auto. rewrite pnt_old by lia. exact Hk3.
        + intros n Hn HN. destruct (Nat.lt_ge_cases (n + p) (length l)) as [Hlt|Hge].
          { rewrite pnt_old by exact Hlt. rewrite pnt_old in HN by lia. apply I5; auto. }
          assert (He : n + p = length l) by lia. rewrite He, Hnew. rewrite pnt_old in HN by lia.
          apply (move_keeps _ _ _ _ _ _ _ _ _ Hj HM). destruct (I4 i Hip) as (k & Hk1 & Hk2 & ->).
          assert (Hk' : length l = k + p).
          { apply same_class; [lia|]. congruence. }
          replace k with n by lia. apply HN.
      - unfold Regroup in HR. rewrite Hcomp in HR. destruct HR as (-> & _). exact IH.
    Qed.

    Lemma least_only (f : list T) k k0 : k0 < length f -> isnum f@k0 -> Forall isnum f -> Least f k -> nleb f@k f@k0 = true.
    Proof. intros H1 H2 H3 [_ H4]. apply (H4 L H3 k0 H1). Qed.

    Lemma sick_flight j k0 ready X V B f g gf l : j < length rows ->
      Flight A rows p deferred true ready X V B f g gf l ->
      OnlyBest p l k0 -> NanAt j (pnt l k0) -> Sick j k0 B f g l.
    Proof.
      intro Hj.
      induction 1 as [X f k l HX HXd Hf Hpm Hl Hk
                     |X V B f g gf l X' V' y B' f' k l' Hd HFl IH HX' HV' Hy HB' Hf' Hmv Hpm Hl Hbb Hff Hk
                     |X V B f g gf l i x v y B' f' g' gf' Hd HFl IH Hi HM Hbf Hg
                     |X V B f g gf l X' V' B' f' HFl IH HR]; intros (Hk0 & Hn0 & Hb) HN; unfold matrix, vec in *.
      - rewrite (Hl eq_refl) in *. assert (HL : length (combine X f) = p) by (rewrite combine_length; unfold matrix, vec in *; lia).
        assert (Hpt : forall i, pnt (combine X f) i = row X i) by (intros; unfold pnt; rewrite combine_at by (unfold matrix, vec in *; congruence); reflexivity).
        assert (Hval : forall i, valu (combine X f) i = f@i) by (intros; unfold valu; rewrite combine_at by (unfold matrix, vec in *; congruence); reflexivity).
        rewrite Hpt, Hval in *.
        assert (Hnum : Forall isnum f).
        { apply Forall_forall. intros z Hz. destruct (In_nth _ _ n0 Hz) as (q & Hq & <-).
          destruct (Nat.eq_dec q k0) as [->|Hne]; [exact Hn0|]. specialize (Hb q ltac:(unfold vec in *; lia) Hne).
          rewrite Hval in Hb. exact (lt_num_r _ _ Hb). }
        constructor; unfold matrix, vec in *; rewrite ?Hval; auto.
        + intros i Hi. destruct (Nat.eq_dec i k0) as [->|Hne]; [left; exact HN|right].
          specialize (Hb i Hi Hne). rewrite Hval in Hb. exact Hb.
        + assert (k = k0) as ->; [|exact HN]. destruct (Nat.eq_dec k k0) as [|Hne]; [assumption|exfalso].
          assert (Hkp : k < p) by (destruct Hk as [Hk _]; unfold vec in *; lia).
          specialize (Hb k Hkp Hne). rewrite Hval in Hb.
          assert (H1 : nleb f@k f@k0 = true) by (apply least_only; auto; unfold vec in *; lia).
          rewrite (ol_lt_nle _ _ Hb) in H1. discriminate.
        + intros n Hn. lia.
      - assert (HL0 : p <= length l) by apply (se_len _ _ _ (seen_flight j _ _ _ _ _ _ _ _ Hj HFl)).
        rewrite pnt_old in HN by lia.
        assert (HS : Sick j k0 B f g l).
        { apply IH; [|exact HN]. split; [exact Hk0|]. rewrite valu_old in Hn0 by lia. split; [exact Hn0|].
          intros i Hi Hne. specialize (Hb i Hi Hne). rewrite !valu_old in Hb by lia. exact Hb. }
        clear IH. destruct HS as [[S1 S2] S3 S4 S5 S6 S7]. unfold matrix, vec in *.
        rewrite (Hl eq_refl). assert (HL : length (combine X' y) = p) by (rewrite combine_length; unfold matrix, vec in *; lia).
        assert (HXn : forall i, i < p -> NanAt j (row X' i)) by (intros i Hi; exact (move_spreads _ _ _ _ _ _ _ _ _ Hj (Hmv i Hi) (proj2 S6))).
        assert (Hnum : Forall isnum f').
        { apply Forall_forall. intros z Hz. destruct (In_nth _ _ n0 Hz) as (q & Hq & <-).
          rewrite Hff by (unfold vec in *; lia). destruct (nltb y@q f@q) eqn:Hlt; [exact (lt_num_l _ _ Hlt)|].
          rewrite Forall_forall in S3. apply S3, nth_In. unfold vec in *; lia. }
        assert (HB : forall i, i < p -> NanAt j (row B' i) \/ nltb (valu l k0) f'@i = true).
        { intros i Hi. rewrite Hbb, Hff by exact Hi. destruct (nltb y@i f@i); [left; apply HXn, Hi|apply S4, Hi]. }
        assert (Hfk : nleb f'@k0 (valu l k0) = true).
        { rewrite Hff by exact Hk0. destruct (nltb y@k0 f@k0) eqn:Hlt; [|exact S5].
          eapply ol_le_trans; [apply ol_lt_le, Hlt|exact S5]. }
        constructor; unfold matrix, vec in *; rewrite ?valu_old by lia; auto.
        + assert (Hkp : k < p) by (destruct Hk as [Hk _]; unfold vec in *; lia).
          destruct (HB k Hkp) as [|Hlt]; [assumption|exfalso].
          assert (H1 : nleb f'@k f'@k0 = true).
          { apply least_only; auto; [unfold vec in *; lia|]. exact (le_num_l _ _ Hfk). }
          pose proof (ol_le_trans _ _ _ H1 Hfk) as H2. rewrite (ol_lt_nle _ _ Hlt) in H2. discriminate.
        + intros n. rewrite app_length, HL. intro Hn. destruct (Nat.lt_ge_cases n (length l)) as [Hlt|Hge].
          { rewrite pnt_old by exact Hlt. apply S7. lia. }
          replace n with (length l + (n - length l)) by lia. unfold pnt.
          rewrite app_nth2_plus, combine_at by (unfold matrix, vec in *; congruence). apply HXn. lia.
      - assert (HL0 : p <= length l) by apply (se_len _ _ _ (seen_flight j _ _ _ _ _ _ _ _ Hj HFl)).
        rewrite pnt_old in HN by lia.
        assert (HS : Sick j k0 B f g l).
        { apply IH; [|exact HN]. split; [exact Hk0|]. rewrite valu_old in Hn0 by lia. split; [exact Hn0|].
          intros q Hq Hne. specialize (Hb q Hq Hne). rewrite !valu_old in Hb by lia. exact Hb. }
        clear IH. destruct HS as [[S1 S2] S3 S4 S5 S6 S7]. unfold matrix, vec in *.
        assert (Hx : NanAt j x) by exact (move_spreads _ _ _ _ _ _ _ _ _ Hj HM (proj2 S6)).
        assert (Hip : i < p) by (subst i; apply Nat.mod_upper_bound; lia).
        assert (Hl' : forall n, p <= n < length (l ++ [(x, y)]) -> NanAt j (pnt (l ++ [(x, y)]) n)).
        { intros n. rewrite app_length. cbn [length]. intro Hn. destruct (Nat.lt_ge_cases n (length l)) as [Hlt|Hge].
          - rewrite pnt_old by exact Hlt. apply S7. lia.
          - replace n with (length l) by lia. unfold pnt. rewrite app_nth2, Nat.sub_diag by lia. exact Hx. }
        assert (Hg' : NanAt j g').
        { destruct (nleb y f@i && nleb y gf); destruct Hg as [-> _]; assumption. }
        destruct (nleb y f@i) eqn:Hle; destruct Hbf as [-> ->].
        + constructor; unfold matrix, vec in *; rewrite ?valu_old by lia; auto.
          * rewrite !upd_length. auto.
          * apply Forall_forall. intros z Hz. destruct (In_nth _ _ n0 Hz) as (q & Hq & <-). rewrite upd_length in Hq.
            destruct (Nat.eq_dec q i) as [->|Hne].
            -- rewrite upd_nth_same by exact Hq. exact (le_num_l _ _ Hle).
            -- rewrite upd_nth_other by auto. rewrite Forall_forall in S3. apply S3, nth_In, Hq.
          * intros q Hq. destruct (Nat.eq_dec q i) as [->|Hne].
            -- left. rewrite upd_nth_same by (unfold matrix, vec in *; lia). exact Hx.
            -- rewrite !upd_nth_other by auto. apply S4, Hq.
          * destruct (Nat.eq_dec k0 i) as [->|Hne].
            -- rewrite upd_nth_same by (unfold vec in *; lia). exact (ol_le_trans _ _ _ Hle S5).
            -- rewrite upd_nth_other by auto. exact S5.
        + constructor; unfold matrix, vec in *; rewrite ?valu_old by lia; auto.
      - unfold Regroup in HR. rewrite Hcomp in HR. destruct HR as (_ & _ & -> & ->). apply IH; [|exact HN].
        split; [exact Hk0|]. auto.
    Qed.
  End Fl.

  Lemma nan_dim (rows : list (list T)) (x : list T) j : length x = length rows -> NanAt j x -> j < length rows.
  Proof. intros H [H1 _]. unfold vec in *. lia. Qed.

  Lemma evals_point (t : list event) z : In z (evals t) -> In (fst z) (points t).
  Proof.
    induction t as [|e t IH]; [auto|]. destruct e as [x [y|n]|? ? ?|? ? ?|?|?]; cbn; intros H; auto.
    destruct H as [<-|H]; [left; reflexivity|right; auto].
  Qed.

  Theorem C83_cpso (HE : EnvOK) A rows w a0 res st' :
    a_bounds (pa A) = D2 2 rows -> (forall x, a_x0 (pa A) = Some x -> nd_wf x) ->
    a_backend (pa A) <> Some "mpi"%string -> one_worker (a_workers (pa A)) = true ->
    pa_competitivity A = None ->
    exec (cpso_minimize A) w a0 = (inl res, st') ->
    Infected (Z.to_nat (a_popsize (pa A))) (evals (tr st')) (r_x res).
  Proof.
    intros Hb Hwf Hm Hw Hc H.
    destruct (C57_flight HE A rows w a0 res st' Hb Hwf Hm) as (X & V & B & f & HF & _); [rewrite Hc; cbn; congruence|exact H|].
    rewrite Hw in HF. set (p := Z.to_nat (a_popsize (pa A))) in *. destruct (Nat.eq_dec p 0) as [Hp0|Hp0].
    { rewrite Hp0. constructor; [intros j n _; rewrite Nat.add_0_r; auto|intros j k [Hk _]; lia]. }
    assert (Hp' : 0 < p) by lia.
    assert (Hdim : forall n, n < @length (list T * T) (evals (tr st')) -> length (pnt (evals (tr st')) n) = length rows).
    { intros n Hn. destruct (C52_cpso HE A w a0 _ _ Hwf H) as [HD _]. rewrite Hb in HD. cbn [nd_len] in HD.
      apply HD. unfold pnt. apply evals_point, nth_In, Hn. }
    constructor.
    - intros j n Hn HN. assert (Hj : j < length rows) by (apply (nan_dim rows _ j (Hdim n ltac:(lia)) HN)).
      apply (se_keeps p _ _ _ _ (seen_flight A rows p _ Hc Hp' j _ _ _ _ _ _ _ _ Hj HF)); auto.
    - intros j k Hk HN.
      assert (Hj : j < length rows).
      { destruct (Nat.lt_ge_cases k (@length (list T * T) (evals (tr st')))) as [Hlt|Hge].
        - apply (nan_dim rows _ j (Hdim k Hlt) HN).
        - destruct HN as [HN _]. unfold pnt in HN. rewrite nth_overflow in HN by exact Hge. cbn in HN. lia. }
      destruct (sick_flight A rows p _ Hc Hp' j k _ _ _ _ _ _ _ _ Hj HF Hk HN) as [_ _ _ _ S6 S7]. auto.
  Qed.
  Theorem C83_pso (HE : EnvOK) A rows w a0 res st' :
    a_bounds (psa A) = D2 2 rows -> (forall x, a_x0 (psa A) = Some x -> nd_wf x) ->
    a_backend (psa A) <> Some "mpi"%string -> one_worker (a_workers (psa A)) = true ->
    exec (pso_minimize A) w a0 = (inl res, st') ->
    Infected (Z.to_nat (a_popsize (psa A))) (evals (tr st')) (r_x res).
  Proof.
    intros Hb Hwf Hm Hw H.
    exact (C83_cpso HE (mkCPSOArgs (psa A) (psa_inertia A) (psa_cognitivity A) (psa_sociability A) None (psa_updating A))
             rows w a0 res st' Hb Hwf Hm Hw eq_refl H).
  Qed.
End Infect.
