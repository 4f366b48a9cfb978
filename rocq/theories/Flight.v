(** C57: the flight of the particles of pso and cpso. *)
From Coq Require Import Permutation.
From Verif Require Import Base Num Env Common DE CPSO NA Hoare EvalRules Gen Steps Hist Runs Best
  Inst HistFacts HistBest PropPop Laws Safe Feas CmaStop Trial Restart Explore.

Section Flight.
  Context {N : Num} {E : Env N}.

  Local Notation "v '@' j" := (nth j v n0) (at level 9, no associativity).
  Local Notation row X i := (nth i X ([] : vec)).

  (** ** What a proper move is *)

  (** The velocity equation for a particle at [x] with velocity [v], own best position [b] and the
      swarm's best position [g], with fresh random numbers for every coordinate. *)
  Definition Velocity (A : CPSOArgs) (d : nat) (x v b g u : vec) : Prop :=
    length u = d /\
    exists r1 r2, draws d r1 /\ draws d r2 /\
      forall j, j < d -> u@j =
        nadd (nadd (nmul (pa_inertia A) v@j)
                   (nmul (nmul (pa_cognitivity A) r1@j) (nsub b@j x@j)))
             (nmul (nmul (pa_sociability A) r2@j) (nsub g@j x@j)).

  (** [q * u] just reaches the bound that [x + u] violates in some coordinate. *)
  Definition Factor (rows : matrix) (x u : vec) (q : T) : Prop :=
    exists j, j < length rows /\
      let lo := (row rows j)@0 in let hi := (row rows j)@1 in
      (nltb (nadd x@j u@j) lo = true /\ q = ndiv (nsub lo x@j) u@j) \/
      (nltb hi (nadd x@j u@j) = true /\ q = ndiv (nsub hi x@j) u@j).

  (** constraints="Shrink": the whole velocity is multiplied by the smallest of these factors, by 1
      if no bound is violated. *)
  Definition Shrunk (con : option string) (rows : matrix) (x u v : vec) : Prop :=
    match con with
    | None => v = u
    | Some _ => length v = length u /\
        exists q, (forall j, j < length u -> v@j = nmul u@j q) /\
          ((exists q', Factor rows x u q') -> Factor rows x u q) /\
          (forall L : OrdLaws num_arith, (forall q', Factor rows x u q' -> isnum q') ->
             forall q', Factor rows x u q' -> nleb q q' = true) /\
          ((forall q', ~ Factor rows x u q') -> q = n1)
    end.

  Definition Move (A : CPSOArgs) (rows : matrix) (x v b g x' v' : vec) : Prop :=
    let d := length rows in
    exists u, Velocity A d x v b g u /\ Shrunk (a_constraints (pa A)) rows x u v' /\
      length x' = d /\ forall j, j < d -> x'@j = nadd x@j v'@j.

  (** The position of a smallest value. *)
  Definition Least (f : vec) (k : nat) : Prop :=
    k < length f /\
    forall L : OrdLaws num_arith, Forall isnum f -> forall j, j < length f -> nleb f@k f@j = true.

  (** The largest of some numbers (NaN if one of them is NaN). *)
  Definition Top (l : list T) (m : T) : Prop :=
    In m l /\ forall L : OrdLaws num_arith,
      (Forall isnum l -> forall x, In x l -> nleb x m = true) /\ ((exists x, In x l /\ ~ isnum x) -> ~ isnum m).
  (** The distance of two positions. *)
  Definition Gap (x g : vec) : T :=
    nsqrt (fold_left nadd (map (fun j => nmul (nsub x@j g@j) (nsub x@j g@j)) (seq 0 (length g))) n0).

  (** The particles [K] start again from a random position, at rest and without memory. *)
  Record Reset (rows : matrix) (p : nat) (K : list nat) (X V B : matrix) (f : vec)
      (X' V' B' : matrix) (f' : vec) : Prop := {
    re_set : NoDup K /\ Forall (fun i => i < p) K;
    re_X : forall i, In i K -> exists r, draws (length rows) r /\ length (row X' i) = length rows /\
             forall j, j < length rows ->
               (row X' i)@j = nadd (row rows j)@0 (nmul (nsub (row rows j)@1 (row rows j)@0) r@j);
    re_V : forall i, In i K -> row V' i = repeat n0 (length rows);
    re_B : forall i, In i K -> row B' i = row X' i;
    re_f : forall i, In i K -> f'@i = nlit 1 30;
    re_others : forall i, ~ In i K ->
      row X' i = row X i /\ row V' i = row V i /\ row B' i = row B i /\ f'@i = f@i;
    re_len : length X' = p /\ length V' = p /\ length B' = p /\ length f' = p }.

  (** Between two generations: nothing without competition; with competition the worst particles
      are reset if the swarm has collapsed on its best position. *)
  Definition Regroup (A : CPSOArgs) (rows : matrix) (p it : nat) (X V B : matrix) (f g : vec)
      (X' V' B' : matrix) (f' : vec) : Prop :=
    let same := X' = X /\ V' = V /\ B' = B /\ f' = f in
    let maxiter := a_maxiter (pa A) in
    match pa_competitivity A with
    | None => same
    | Some c =>
        if neqb c n0 then same else
        exists far big, Top (map (fun x => Gap x g) X) far /\
        Top [nlit 2 (-1); nln (nmul (nlit 1 (-2)) (nZ maxiter))] big /\
        if nltb (ndiv far (nsqrt (nmul (nZ 4) (nN (length rows)))))
                (ndiv (nln (nadd n1 (nmul (nlit 3 (-3)) (nZ (a_popsize (pa A)))))) big)
        then exists nw,
          ntrunc (ndiv (nsub (nN p) n1)
                   (nadd n1 (nexp (nmul (ndiv n1 (nlit 9 (-2)))
                     (nadd (nsub (ndiv (nZ (Z.of_nat it)) (nZ maxiter)) c) (nlit 5 (-1))))))) = Some nw /\
          if (0 <? nw)%Z
          then exists K, length K = Z.to_nat nw /\ length K < p /\
                 (forall L : OrdLaws num_arith, Forall isnum f -> Worst p f K) /\
                 Reset rows p K X V B f X' V' B' f'
          else same
        else same
    end.

  (** The flight of a swarm: positions [X], velocities [V], best positions [B] of the particles with
      values [f], the swarm's best position [g] with value [gf], after the evaluations [l].
      [ready]: the next thing is a move (otherwise a generation is complete). *)
  Inductive Flight (A : CPSOArgs) (rows : matrix) (p : nat) (deferred serial : bool)
    : bool -> matrix -> matrix -> matrix -> vec -> vec -> T -> list (vec * T) -> Prop :=
  | Fl_start X f k l :
      length X = p -> Forall (fun x => length x = length rows) X -> length f = p ->
      Permutation l (combine X f) -> (serial = true -> l = combine X f) -> Least f k ->
      Flight A rows p deferred serial true
             X (repeat (repeat n0 (length rows)) p) X f (row X k) f@k l
  | Fl_generation X V B f g gf l X' V' y B' f' k l' :
      deferred = true ->
      Flight A rows p deferred serial true X V B f g gf l ->
      length X' = p -> length V' = p -> length y = p -> length B' = p -> length f' = p ->
      (* every particle moves, from the same swarm *)
      (forall i, i < p -> Move A rows (row X i) (row V i) (row B i) g (row X' i) (row V' i)) ->
      Permutation l' (combine X' y) -> (serial = true -> l' = combine X' y) ->
      (* a particle's best position is replaced by a better one *)
      (forall i, i < p -> row B' i = if nltb y@i f@i then row X' i else row B i) ->
      (forall i, i < p -> f'@i = if nltb y@i f@i then y@i else f@i) ->
      Least f' k ->
      Flight A rows p deferred serial false X' V' B' f' (row B' k) f'@k (l ++ l')
  | Fl_one X V B f g gf l i x v y B' f' g' gf' :
      deferred = false ->
      Flight A rows p deferred serial true X V B f g gf l ->
      (* the particles in turn, from the swarm at that moment *)
      i = length l mod p ->
      Move A rows (row X i) (row V i) (row B i) g x v ->
      (if nleb y f@i then B' = upd i x B /\ f' = upd i y f else B' = B /\ f' = f) ->
      (if nleb y f@i && nleb y gf then g' = x /\ gf' = y else g' = g /\ gf' = gf) ->
      Flight A rows p deferred serial (negb (S i =? p)) (upd i x X) (upd i v V) B' f' g' gf' (l ++ [(x, y)])
  | Fl_next X V B f g gf l X' V' B' f' :
      Flight A rows p deferred serial false X V B f g gf l ->
      Regroup A rows p (length l / p) X V B f g X' V' B' f' ->
      Flight A rows p deferred serial true X' V' B' f' g gf l.

  (** ** The move *)
  Lemma in_shrink_side out (b : vec) : forall X V, length X = length b -> length V = length b -> forall q,
    In q (shrink_side out X V b) <->
    exists j, j < length b /\ out (nadd X@j V@j) b@j = true /\ q = ndiv (nsub b@j X@j) V@j.
  Proof.
    unfold shrink_side.
    induction b as [|b bs IH]; intros [|x X] [|v V] HX HV q; cbn in HX, HV; try discriminate.
    - cbn. split; [intros []|intros (j & Hj & _); lia].
    - cbn [map3 concat]. rewrite in_app_iff, IH by lia. split.
      + intros [H|(j & Hj & H1 & H2)].
        * destruct (out (nadd x v) b) eqn:Ho; cbn in H; [|destruct H]. destruct H as [<-|[]].
          exists 0. cbn. repeat split; auto; lia.
        * exists (S j). cbn. repeat split; auto; lia.
      + intros ([|j] & Hj & H1 & H2); cbn in *.
        * left. rewrite H1. left. auto.
        * right. exists j. repeat split; auto; lia.
  Qed.

  Lemma np_min2_pick (a b : T) : np_min2 a b = a \/ np_min2 a b = b.
  Proof. unfold np_min2. destruct (nisnan a); auto. destruct (nleb a b); auto. Qed.
  Lemma fold_min_in (l : vec) : forall a, In (fold_left np_min2 l a) (a :: l).
  Proof.
    induction l as [|b l IH]; intros a; cbn; [auto|].
    destruct (IH (np_min2 a b)) as [H|H]; [|right; right; exact H].
    rewrite <- H. destruct (np_min2_pick a b) as [-> | ->]; auto.
  Qed.
  Lemma vmin_In (l : vec) : l <> [] -> In (vmin l) l.
  Proof. destruct l as [|a l]; [congruence|]. intros _. apply fold_min_in. Qed.

  Lemma shrink_least lower upper X V :
    let FL := shrink_side (fun c b => nltb c b) X V lower ++ shrink_side (fun c b => nltb b c) X V upper in
    (FL <> [] -> In (shrink lower upper X V) FL) /\
    (FL = [] -> shrink lower upper X V = n1) /\
    (forall L : OrdLaws num_arith, Forall isnum FL -> forall q, In q FL -> nleb (shrink lower upper X V) q = true).
  Proof.
    unfold shrink. set (bl := shrink_side _ X V lower). set (bu := shrink_side _ X V upper).
    cbn zeta. split; [|split].
    - destruct bl as [|a bl]; destruct bu as [|b bu]; intros H.
      + elim H; reflexivity.
      + apply vmin_In. discriminate.
      + rewrite app_nil_r. apply vmin_In. discriminate.
      + apply in_or_app. unfold pymin. destruct (nltb _ _); [right|left]; apply vmin_In; discriminate.
    - intros H. apply app_eq_nil in H. destruct H as [-> ->]. reflexivity.
    - intros L HF q Hq. rewrite Forall_app in HF. destruct HF as [Hl Hu].
      assert (Hn : forall l : vec, Forall isnum l -> l <> [] -> isnum (vmin l)).
      { intros l H Hne. rewrite Forall_forall in H. apply H, vmin_In, Hne. }
      destruct bl as [|a bl]; destruct bu as [|b bu].
      + destruct Hq.
      + apply vmin_lb; [apply Hn; [exact Hu|discriminate]|exact Hq].
      + rewrite app_nil_r in Hq. apply vmin_lb; [apply Hn; [exact Hl|discriminate]|exact Hq].
      + assert (H1 : isnum (vmin (a :: bl))) by (apply Hn; [exact Hl|discriminate]).
        assert (H2 : isnum (vmin (b :: bu))) by (apply Hn; [exact Hu|discriminate]).
        apply in_app_or in Hq. unfold pymin. destruct (nltb (vmin (b :: bu)) (vmin (a :: bl))) eqn:Hlt.
        * destruct Hq as [Hq|Hq]; [|apply vmin_lb; auto].
          eapply ol_le_trans; [apply ol_lt_le, Hlt|]. apply vmin_lb; auto.
        * destruct Hq as [Hq|Hq]; [apply vmin_lb; auto|].
          eapply ol_le_trans; [|apply vmin_lb; [exact H2|exact Hq]].
          apply ol_total; auto.
  Qed.

  Context (HE : EnvOK).

  Section Good.
    Context (A : CPSOArgs) (rows : matrix) (P : PSOParams) (sync : bool).
    Context (Hb : a_bounds (pa A) = D2 2 rows) (HP : PSOParamsOf A sync P).
    Let d := length rows.
    Let p := ps_p P.
    Let serial := one_worker (a_workers (pa A)).
    Context (HM : ps_mode P <> Mpi).
    Context (HR : truthy (pa_competitivity A) <> None -> RestartLaw p).

    Lemma PP_d : ps_d P = d.
    Proof. rewrite (ppo_d _ _ _ HP), Hb. reflexivity. Qed.
    Lemma PP_bounds : ps_lower P = lows rows /\ ps_upper P = ups rows.
    Proof.
      destruct (ppo_bounds _ _ _ HP) as (rows' & Hr & H1 & H2). rewrite Hb in Hr. injection Hr as <-. auto.
    Qed.
    Lemma lows_at j : j < d -> (lows rows)@j = (row rows j)@0.
    Proof.
      intros Hj. unfold lows. rewrite nth_indep with (d' := (fun r : vec => nth 0 r n0) []) by (rewrite map_length; exact Hj).
      apply (map_nth (fun r : vec => nth 0 r n0)).
    Qed.
    Lemma ups_at j : j < d -> (ups rows)@j = (row rows j)@1.
    Proof.
      intros Hj. unfold ups. rewrite nth_indep with (d' := (fun r : vec => nth 1 r n0) []) by (rewrite map_length; exact Hj).
      apply (map_nth (fun r : vec => nth 1 r n0)).
    Qed.

    Lemma factors_in x u q : length x = d -> length u = d ->
      (In q (shrink_side (fun c b => nltb c b) x u (lows rows) ++ shrink_side (fun c b => nltb b c) x u (ups rows)) <->
       Factor rows x u q).
    Proof.
      intros Hx Hu. rewrite in_app_iff, !in_shrink_side by (rewrite ?lows_len, ?ups_len; assumption).
      rewrite lows_len, ups_len. fold d. unfold Factor. fold d. split.
      - intros [(j & Hj & H1 & H2)|(j & Hj & H1 & H2)]; exists j; (split; [exact Hj|]); cbn zeta.
        + rewrite lows_at in H1, H2 by exact Hj. left; auto.
        + rewrite ups_at in H1, H2 by exact Hj. right; auto.
      - intros (j & Hj & [[H1 H2]|[H1 H2]]); [left|right]; exists j; (split; [exact Hj|]).
        + rewrite lows_at by exact Hj. auto.
        + rewrite ups_at by exact Hj. auto.
    Qed.

    Lemma mutation_Move x v b g r1 r2 :
      length x = d -> length v = d -> length b = d -> length g = d -> draws d r1 -> draws d r2 ->
      let xv := pso_mutation P x v b g r1 r2 in
      length (fst xv) = d /\ length (snd xv) = d /\ Move A rows x v b g (fst xv) (snd xv).
    Proof.
      intros Hx Hv Hbl Hg Hr1 Hr2. cbn zeta. unfold pso_mutation. destruct PP_bounds as [-> ->].
      set (u := velocity P x v b g r1 r2).
      assert (Hl1 := proj1 Hr1). assert (Hl2 := proj1 Hr2).
      assert (Hul : length u = d).
      { unfold u, velocity. rewrite map2_length, !combine_length. vlia. }
      assert (HU : Velocity A d x v b g u).
      { split; [exact Hul|]. exists r1, r2. split; [exact Hr1|]. split; [exact Hr2|]. intros j Hj.
        unfold u, velocity.
        rewrite map2_nth with (a := (n0, n0)) (b := ((n0, n0), (n0, n0))) by (rewrite ?combine_length; vlia).
        rewrite !combine_nth by (rewrite ?combine_length; vlia). cbn [fst snd]. unfold velocity1.
        rewrite (ppo_w _ _ _ HP), (ppo_c1 _ _ _ HP), (ppo_c2 _ _ _ HP). reflexivity. }
      clearbody u. pose proof (ppo_con _ _ _ HP) as Hc.
      assert (Hadd : forall v', length v' = d -> length (vadd x v') = d /\ forall j, j < d -> (vadd x v')@j = nadd x@j v'@j).
      { intros v' Hv'. split; [unfold vadd; rewrite map2_length; vlia|]. intros j Hj. apply (vadd_at _ _ d); auto. }
      destruct (a_constraints (pa A)) as [s|] eqn:Hs; cbn in Hc.
      2: { injection Hc as Hc. rewrite <- Hc. cbn [pso_cons fst snd]. destruct (Hadd u Hul) as [Ha1 Ha2].
           split; [exact Ha1|]. split; [exact Hul|]. exists u. split; [exact HU|]. split; [rewrite Hs; reflexivity|]. auto. }
      destruct (String.eqb s "Shrink"); [|discriminate]. injection Hc as Hc. rewrite <- Hc. cbn [pso_cons fst snd].
      set (beta := shrink (lows rows) (ups rows) x u).
      set (v' := map (fun y => nmul y beta) u).
      assert (Hvl : length v' = d) by (unfold v'; rewrite map_length; exact Hul).
      destruct (Hadd v' Hvl) as [Ha1 Ha2]. split; [exact Ha1|]. split; [exact Hvl|].
      exists u. split; [exact HU|]. split; [|auto]. rewrite Hs. split; [vlia|]. exists beta.
      pose proof (shrink_least (lows rows) (ups rows) x u) as H. cbn zeta in H. fold beta in H.
      destruct H as (H1 & H2 & H3).
      split; [|split; [|split]].
      - intros j Hj. unfold v'. rewrite nth_indep with (d' := (fun y => nmul y beta) n0) by (rewrite map_length; exact Hj).
        apply (map_nth (fun y => nmul y beta)).
      - intros (q & Hq). apply (factors_in _ _ _ Hx Hul). apply H1. intros Hn.
        apply (factors_in _ _ _ Hx Hul) in Hq. rewrite Hn in Hq. exact Hq.
      - intros L Hnum q Hq. apply (H3 L); [|apply (factors_in _ _ _ Hx Hul), Hq].
        apply Forall_forall. intros q' Hq'. apply Hnum, (factors_in _ _ _ Hx Hul), Hq'.
      - intros Hno. apply H2. destruct (_ ++ _) as [|q l] eqn:Hl; [reflexivity|].
        exfalso. apply (Hno q). apply (factors_in _ _ _ Hx Hul). rewrite Hl. left; reflexivity.
    Qed.

    Definition PShape (s : PSOS) : Prop :=
      Swarm p s /\ Forall (Len d) (pss_X s) /\ Forall (Len d) (pss_V s) /\ Forall (Len d) (pss_pbest s) /\
      Len d (pss_gbest s).

    Definition FlightOf (ready : bool) (s : PSOS) (t : list event) : Prop :=
      Flight A rows p sync serial ready (pss_X s) (pss_V s) (pss_pbest s) (pss_pbestfit s)
             (pss_gbest s) (pss_gfit s) (evals t).

    Definition FInv (ready : bool) (it : Z) (s : PSOS) (st : St) : Prop :=
      FlightOf ready s (tr st) /\ PShape s /\ (1 <= it)%Z /\ length (evals (tr st)) = Z.to_nat it * p.

    Lemma PP_p : 2 <= p.
    Proof. apply (ppo_p2 _ _ _ HP). Qed.

    Lemma Least_argmin (f : vec) : length f = p -> Least f (argmin f).
    Proof.
      pose proof PP_p. intros Hf. split.
      - apply argmin_lt. intros ->. cbn in Hf. lia.
      - intros L HF j Hj. apply (argmin_min f HF j Hj).
    Qed.

    Lemma serial_mode : serial = true -> ps_mode P = Serial.
    Proof. intros Hs. apply (one_worker_serial _ _ _ _ (ppo_mode _ _ _ HP) HM Hs). Qed.

    Lemma sync_flight it r1 r2 s st : sync = true ->
      FInv true it s st -> length r1 = p -> Forall (draws d) r1 -> length r2 = p -> Forall (draws d) r2 ->
      wp (pso_sync P (it + 1) r1 r2 s) (fun r st' => FInv false (it + 1) (fst r) st') NF st.
    Proof.
      intros Hsy (HF & (HS & HX & HV & HB & Hg) & Hit & Hl) Hr1 Hd1 Hr2 Hd2. destruct HS as (SX & SV & SB & Sf).
      pose proof PP_p as Hp2.
      unfold pso_sync. apply wp_bind, wp_raise_if; [discriminate|]. intros _. cbn zeta.
      set (XV := pso_moves P r1 r2 s).
      assert (HXV : length XV = p).
      { unfold XV, pso_moves. rewrite map3_length, !combine_length. vlia. }
      assert (Hat : forall i, i < p -> nth i XV ([], []) =
         pso_mutation P (row (pss_X s) i) (row (pss_V s) i) (row (pss_pbest s) i) (pss_gbest s) (row r1 i) (row r2 i)).
      { intros i Hi. unfold XV, pso_moves.
        rewrite map3_nth with (a := (([] : vec), ([] : vec))) (b := ([] : vec)) (c := (([] : vec), ([] : vec)))
          by (rewrite ?combine_length; vlia).
        rewrite !combine_nth by vlia. reflexivity. }
      assert (HMv : forall i, i < p -> Len d (fst (nth i XV ([], []))) /\ Len d (snd (nth i XV ([], []))) /\
         Move A rows (row (pss_X s) i) (row (pss_V s) i) (row (pss_pbest s) i) (pss_gbest s)
              (fst (nth i XV ([], []))) (snd (nth i XV ([], [])))).
      { intros i Hi. rewrite (Hat i Hi). apply mutation_Move.
        - apply (Forall_nth_lt _ _ [] i HX). vlia.
        - apply (Forall_nth_lt _ _ [] i HV). vlia.
        - apply (Forall_nth_lt _ _ [] i HB). vlia.
        - exact Hg.
        - apply (Forall_nth_lt _ _ [] i Hd1). vlia.
        - apply (Forall_nth_lt _ _ [] i Hd2). vlia. }
      clearbody XV.
      assert (Hfst : forall i, row (map fst XV) i = fst (nth i XV ([], []))) by (intros i; apply (map_nth fst XV ([], []))).
      assert (Hsnd : forall i, row (map snd XV) i = snd (nth i XV ([], []))) by (intros i; apply (map_nth snd XV ([], []))).
      assert (HXl : Forall (Len d) (map fst XV)).
      { apply (Forall_nth' _ _ ([] : vec)). intros i Hi. rewrite map_length in Hi. rewrite Hfst. apply HMv. lia. }
      assert (HVl : Forall (Len d) (map snd XV)).
      { apply (Forall_nth' _ _ ([] : vec)). intros i Hi. rewrite map_length in Hi. rewrite Hsnd. apply HMv. lia. }
      apply wp_bind.
      apply (wp_selection_sync _ _ _ _ _ _ _ _ _ p (ps_mode P) (fun x => x) (Forall (Len d))).
      { rewrite map_length; exact HXV. }
      { exact SB. }
      { exact Sf. }
      { apply wp_eval_pop_rule; auto.
        - apply (EnvOK_mode HE).
        - rewrite map_length; exact HXV.
        - intros Hm. contradiction. }
      intros X' f st' evs Hf _ _ Ht _ _ _ Hev.
      destruct (Hev HM) as (-> & l & -> & Hpm & Hser). rewrite map_id in Hpm, Hser. clear Hev.
      apply wp_ret. cbn [fst sync_sel ss_cand ss_x ss_xfun ss_best ss_bestfun ss_candfun].
      set (B' := sel_x (map fst XV) f (pss_pbest s) (pss_pbestfit s)).
      set (f' := sel_fun f (pss_pbestfit s)).
      assert (HlB : length B' = p) by (apply Gen.sel_x_length; auto; rewrite map_length; auto).
      assert (Hlf : length f' = p) by (apply sel_fun_length; auto).
      assert (HBa : forall i, i < p -> row B' i = if nltb f@i (pss_pbestfit s)@i then row (map fst XV) i else row (pss_pbest s) i).
      { intros i Hi. unfold B', sel_x.
        rewrite map2_nth with (a := (([] : vec), n0)) (b := (([] : vec), n0)) by (rewrite combine_length, ?map_length; vlia).
        rewrite !combine_nth by (rewrite ?map_length; vlia). reflexivity. }
      assert (Hfa : forall i, i < p -> f'@i = if nltb f@i (pss_pbestfit s)@i then f@i else (pss_pbestfit s)@i).
      { intros i Hi. unfold f', sel_fun. rewrite map2_nth with (a := n0) (b := n0) by vlia. reflexivity. }
      assert (HBl : Forall (Len d) B').
      { apply (Forall_nth' _ _ ([] : vec)). intros i Hi. rewrite (HBa i) by lia. destruct (nltb _ _).
        - rewrite Hfst. apply HMv. lia.
        - apply (Forall_nth_lt _ _ [] i HB). vlia. }
      clearbody B' f'. pose proof (Least_argmin f' Hlf) as HLe.
      assert (Hll : length l = p) by (rewrite (Permutation_length Hpm), combine_length, map_length; vlia).
      unfold FInv, FlightOf, PShape. cbn [pss_X pss_V pss_pbest pss_pbestfit pss_gbest pss_gfit].
      rewrite Ht, evals_app, evals_ok. split; [|split; [|split]].
      - eapply Fl_generation; [exact Hsy|exact HF| | | | | | |exact Hpm| |exact HBa|exact Hfa|exact HLe];
          rewrite ?map_length; auto.
        + intros i Hi. rewrite Hfst, Hsnd. apply HMv, Hi.
        + intros Hs. apply Hser, serial_mode, Hs.
      - repeat split; cbn; rewrite ?map_length; auto.
        apply (Forall_nth_lt _ _ [] _ HBl). destruct HLe as [HLe _]. vlia.
      - lia.
      - rewrite app_length, Hl, Hll. replace (Z.to_nat (it + 1)) with (S (Z.to_nat it)) by lia. cbn. lia.
    Qed.

    Lemma async_flight it r1 r2 s st : sync = false ->
      FInv true it s st -> length r1 = p -> Forall (draws d) r1 -> length r2 = p -> Forall (draws d) r2 ->
      wp (pso_async P (it + 1) r1 r2 s) (fun r st' => FInv false (it + 1) (fst r) st') NF st.
    Proof.
      intros Hsy (HF & HSh & Hit & Hl) Hr1 Hd1 Hr2 Hd2. pose proof PP_p as Hp2.
      unfold pso_async. apply wp_bind. fold p.
      eapply wp_conseq;
        [apply (wp_foldM (pso_async_one P r1 r2) (seq 0 p)
          (fun done acc st' => FlightOf (negb (length done =? p)) (fst acc) (tr st') /\ PShape (fst acc) /\
             length (evals (tr st')) = Z.to_nat it * p + length done) NF [] (s, None) st)| |auto].
      - cbn [length fst]. destruct (0 =? p) eqn:H0; [apply Nat.eqb_eq in H0; lia|]. cbn [negb].
        split; [exact HF|]. split; [exact HSh|]. lia.
      - intros pre i post [a ast] s1 Hseq (HFa & HSa & Hla).
        destruct (seq_split_at _ _ _ _ Hseq) as [-> Hi].
        set (i := length pre) in *. cbn [fst snd app] in *. unfold pso_async_one. cbn [fst].
        destruct HSa as ((SX & SV & SB & Sf) & HX & HV & HB & Hg).
        replace (negb (length pre =? p)) with true in HFa
          by (fold i; destruct (i =? p) eqn:H0; [apply Nat.eqb_eq in H0; lia|reflexivity]).
        assert (HMv : let xv := pso_mutation P (row (pss_X a) i) (row (pss_V a) i) (row (pss_pbest a) i) (pss_gbest a) (row r1 i) (row r2 i) in
          length (fst xv) = d /\ length (snd xv) = d /\
          Move A rows (row (pss_X a) i) (row (pss_V a) i) (row (pss_pbest a) i) (pss_gbest a) (fst xv) (snd xv)).
        { apply mutation_Move.
          - apply (Forall_nth_lt _ _ [] i HX). vlia.
          - apply (Forall_nth_lt _ _ [] i HV). vlia.
          - apply (Forall_nth_lt _ _ [] i HB). vlia.
          - exact Hg.
          - apply (Forall_nth_lt _ _ [] i Hd1). vlia.
          - apply (Forall_nth_lt _ _ [] i Hd2). vlia. }
        set (xv := pso_mutation P _ _ _ _ _ _) in *. cbn zeta in HMv. clearbody xv.
        destruct xv as [x v]. cbn [fst snd] in *. destruct HMv as (Hx & Hv & HMv).
        apply wp_bind, pso_set_alias_rule. intros s2 Ht2 _.
        apply wp_bind, wp_selection_async.
        intros y s3 Ht3 _. apply wp_ret. cbn [fst].
        rewrite app_length. cbn [length]. fold i. replace (i + 1) with (S i) by lia.
        assert (Hev : evals (tr s3) = evals (tr s1) ++ [(x, y)]).
        { rewrite Ht3, Ht2, evals_app. reflexivity. }
        set (sel := async_sel _ _ _ _ _ _ _ _ _).
        assert (H1 : if nleb y (pss_pbestfit a)@i
                     then sa_x sel = upd i x (pss_pbest a) /\ sa_xfun sel = upd i y (pss_pbestfit a)
                     else sa_x sel = pss_pbest a /\ sa_xfun sel = pss_pbestfit a).
        { unfold sel, async_sel. destruct (nleb y _); [destruct (nleb y _)|]; cbn; auto. }
        assert (H2 : if nleb y (pss_pbestfit a)@i && nleb y (pss_gfit a)
                     then sa_best sel = x /\ sa_bestfun sel = y
                     else sa_best sel = pss_gbest a /\ sa_bestfun sel = pss_gfit a).
        { unfold sel, async_sel. destruct (nleb y (pss_pbestfit a)@i); cbn [andb]; [destruct (nleb y _)|]; cbn; auto. }
        clearbody sel.
        split; [|split].
        + unfold FlightOf. cbn [pss_X pss_V pss_pbest pss_pbestfit pss_gbest pss_gfit]. rewrite Hev.
          eapply Fl_one; [exact Hsy|exact HFa| |exact HMv|exact H1|exact H2].
          rewrite Hla. fold i. rewrite Nat.add_comm, Nat.mod_add, Nat.mod_small by lia. reflexivity.
        + unfold PShape, Swarm. cbn [pss_X pss_V pss_pbest pss_pbestfit pss_gbest pss_gfit].
          rewrite !upd_length.
          assert (HB2 : length (sa_x sel) = p /\ length (sa_xfun sel) = p /\ Forall (Len d) (sa_x sel)).
          { destruct (nleb y (pss_pbestfit a)@i); destruct H1 as [-> ->]; rewrite ?upd_length; repeat split; auto.
            apply Forall_upd; auto. }
          destruct HB2 as (HB2 & HB3 & HB4). repeat split; auto; try (apply Forall_upd; auto).
          destruct (nleb y (pss_pbestfit a)@i && nleb y (pss_gfit a)); destruct H2 as [-> _]; auto.
        + rewrite Hev, app_length, Hla. fold i. cbn [length]. lia.
      - intros [a ast] s1 (HFa & HSa & Hla). cbn [fst app] in *. rewrite seq_length in *.
        apply wp_ret. cbn [fst]. rewrite Nat.eqb_refl in HFa. split; [exact HFa|]. split; [exact HSa|].
        split; [lia|]. rewrite Hla. replace (Z.to_nat (it + 1)) with (S (Z.to_nat it)) by lia. cbn. lia.
    Qed.

    Lemma step_flight it s st : FInv true it s st ->
      wp (pso_step P sync (it + 1) s) (fun r st' => FInv false (it + 1) (fst r) st') NF st.
    Proof.
      intros HI. unfold pso_step. rewrite PP_d. fold p.
      eapply wp_quiet_NF; [apply quiet_draws|]. intros r1 s1 Ht1 Hb1 [Hr1 Hr1'].
      eapply wp_quiet_NF; [apply quiet_draws|]. intros r2 s2 Ht2 Hb2 [Hr2 Hr2'].
      assert (HI2 : FInv true it s s2) by (unfold FInv in *; rewrite Ht2, Ht1; exact HI).
      apply wp_bind.
      assert (Hbody : wp (if sync then pso_sync P (it + 1) r1 r2 s else pso_async P (it + 1) r1 r2 s)
                         (fun r st' => FInv false (it + 1) (fst r) st') NF s2).
      { destruct (Bool.bool_dec sync true) as [Hs|Hs].
        - rewrite Hs at 1. apply sync_flight; auto.
        - apply Bool.not_true_is_false in Hs. rewrite Hs at 1. apply async_flight; auto. }
      eapply wp_post; [exact Hbody|]. intros [s' c] s3 HI3. cbn [fst] in HI3.
      apply wp_bind, wp_rec_write. intros r' _. apply wp_ret. exact HI3.
    Qed.

    Lemma np_max_in a l : In (fold_left np_max2 l a) (a :: l).
    Proof.
      revert a. induction l as [|b l IH]; intros a; cbn [fold_left]; [left; reflexivity|].
      destruct (IH (np_max2 a b)) as [H|H]; [|right; right; exact H].
      rewrite <- H. unfold np_max2. destruct (nisnan a); [left; reflexivity|]. destruct (nleb b a); [left|right; left]; reflexivity.
    Qed.
    Lemma vmax_Top a l : Top (a :: l) (vmax (a :: l)).
    Proof.
      split; [apply np_max_in|]. intros L. split.
      - intros HF x Hx. apply vmax_ub; [|exact Hx]. rewrite Forall_forall in HF. apply HF, np_max_in.
      - intros (x & Hx & Hn) Hm. apply Hn. exact (le_num_l _ _ (vmax_ub _ Hm x Hx)).
    Qed.
    Lemma vnorm_Gap x g : length x = length g -> vnorm (vsub x g) = Gap x g.
    Proof.
      intros Hl. unfold vnorm, vdot, vsum, Gap. do 2 f_equal. unfold vmul, vsub. revert g Hl.
      induction x as [|u x IH]; intros [|v g] Hl; cbn in Hl; try discriminate; [reflexivity|].
      cbn [map2 length seq map nth]. f_equal. rewrite <- seq_shift, map_map. apply IH. lia.
    Qed.

    Lemma post_flight it s st : FInv false it s st ->
      wp (pso_post P it s) (fun s' st' => FInv true it s' st') NF st.
    Proof.
      intros (HF & HSh & Hit & Hl). pose proof PP_p as Hp2.
      assert (Hk : length (evals (tr st)) / p = Z.to_nat it) by (rewrite Hl; apply Nat.div_mul; lia).
      assert (Hsame : pss_X s = pss_X s /\ pss_V s = pss_V s /\ pss_pbest s = pss_pbest s /\ pss_pbestfit s = pss_pbestfit s) by auto.
      assert (Hend : Regroup A rows p (Z.to_nat it) (pss_X s) (pss_V s) (pss_pbest s) (pss_pbestfit s) (pss_gbest s)
                             (pss_X s) (pss_V s) (pss_pbest s) (pss_pbestfit s) -> FInv true it s st).
      { intros HRg. split; [|auto]. eapply Fl_next; [exact HF|]. rewrite Hk. exact HRg. }
      unfold pso_post. pose proof (ppo_gamma _ _ _ HP) as Hga. unfold truthy in Hga.
      unfold Regroup in Hend |- *. unfold truthy in HR.
      destruct (pa_competitivity A) as [c|] eqn:Hcomp.
      2: { rewrite Hga. apply wp_ret, Hend, Hsame. }
      destruct (neqb c n0) eqn:Hc0.
      { rewrite Hga. apply wp_ret, Hend, Hsame. }
      rewrite Hga. unfold restart, swarm_radius, restart_count.
      rewrite (ppo_delta _ _ _ HP), PP_d, (ppo_mx _ _ _ HP). unfold pso_delta. fold p.
      pose proof HSh as ((SX0 & _) & HX0 & _ & _ & Hg0).
      set (far := vmax _). set (big := np_max2 _ _).
      assert (HT1 : Top (map (fun x => Gap x (pss_gbest s)) (pss_X s)) far).
      { replace (map (fun x => Gap x (pss_gbest s)) (pss_X s)) with (map (fun x => vnorm (vsub x (pss_gbest s))) (pss_X s)).
        - unfold far. destruct (pss_X s) as [|x X]; [cbn in SX0; vlia|]. exact (vmax_Top _ _).
        - apply map_ext_in. intros x Hx. apply vnorm_Gap. rewrite Forall_forall in HX0. rewrite (HX0 x Hx). symmetry. exact Hg0. }
      assert (HT2 : Top [nlit 2 (-1); nln (nmul (nlit 1 (-2)) (nZ (a_maxiter (pa A))))] big) by exact (vmax_Top _ _).
      clearbody far big.
      assert (Hend' := fun H => Hend (ex_intro _ far (ex_intro _ big (conj HT1 (conj HT2 H))))).
      clear Hend; rename Hend' into Hend. cbv beta in Hend.
      fold d in Hend. replace (nZ (Z.of_nat (Z.to_nat it))) with (nZ it) in Hend by (f_equal; lia).
      destruct (nltb (ndiv _ (nsqrt (nmul (nZ 4) (nN d)))) (ndiv (nln _) _)) eqn:Hsw.
      2: { apply wp_ret, Hend, Hsame. }
      apply wp_bind, wp_raise_if; [discriminate|]. intros _.
      destruct (ntrunc _) as [nw|] eqn:Hnw; cbn [orelse].
      2: { apply wp_bind, wp_raise; discriminate. }
      apply wp_bind, wp_ret.
      destruct (0 <? nw)%Z eqn:Hn.
      2: { apply wp_ret, Hend. exists nw. split; [reflexivity|]. rewrite Hn. exact Hsame. }
      clear Hend.
      assert (Hlt : (nw <= Z.of_nat p - 1)%Z).
      { apply (HR ltac:(discriminate) it (a_maxiter (pa A)) c). exact Hnw. }
      apply Z.ltb_lt in Hn.
      destruct PP_bounds as [Hlo Hup].
      assert (Huni : quiet (uniform_row (ps_lower P) (ps_upper P)) (fun x => exists r, draws (ps_d P) r /\ length x = ps_d P /\
        forall j, j < ps_d P -> x@j = nadd (ps_lower P)@j (nmul (nsub (ps_upper P)@j (ps_lower P)@j) r@j))).
      { replace (ps_d P) with (length (ps_lower P)) by (rewrite Hlo, lows_len, PP_d; reflexivity).
        apply (quiet_uniform_row_draws). rewrite Hlo, Hup, lows_len, ups_len. reflexivity. }
      eapply wp_quiet_NF;
        [unfold uniform_mat; eapply quiet_bind; [apply quiet_urange|intros _ _; apply quiet_replicateM, Huni]|].
      intros rws s1 Ht1 _ [Hrl HFr].
      apply wp_bind, pso_set_alias_rule. intros s2 Ht2 _. apply wp_ret.
      set (s' := mkPSOS _ _ _ _ _ _ _ _).
      destruct HSh as (HS & HX & HV & HB & Hg). pose proof HS as (SX & SV & SB & Sf).
      set (n := Z.to_nat nw) in *.
      destruct (worst_facts HE (pss_pbestfit s) n ltac:(vlia)) as (_ & Hnd & Hlen & HFw).
      pose proof (fun L Hnum => worst_Worst HE L (pss_pbestfit s) n Hnum ltac:(vlia)) as HWo.
      set (K := worst (pss_pbestfit s) n) in *. rewrite Sf in HFw, HWo.
      assert (Hres : ResetOf (ps_lower P) (ps_upper P) (ps_p P) (ps_d P) K s s').
      { apply (Restarted_ResetOf P K rws s s'); auto.
        - rewrite Hlen. exact Hrl.
        - unfold Restarted, s'. cbn. fold n. fold K. rewrite Hrl, PP_d. repeat split. }
      rewrite Hlo, Hup, PP_d in Hres. fold p in Hres. destruct Hres as [Q1 Q2 Q3 Q4 Q5 Q6 _ Q8].
      assert (Hsz : PShape s').
      { split; [exact Q8|]. destruct Q8 as (L1 & L2 & L3 & L4).
        assert (Hin : forall i, {In i K} + {~ In i K}) by (intros i; apply in_dec, Nat.eq_dec).
        split; [|split; [|split; [|exact Hg]]]; apply (Forall_nth' _ _ ([] : vec)); intros i Hi.
        - destruct (Hin i) as [Hi'|Hi'].
          + destruct (Q3 i Hi') as (r & _ & H & _). exact H.
          + destruct (Q6 i Hi') as (_ & H & _). unfold matrix, vec in *. rewrite H. apply (Forall_nth_lt _ _ [] i HX). vlia.
        - destruct (Hin i) as [Hi'|Hi'].
          + pose proof (Q2 i Hi') as H. unfold matrix, vec in *. rewrite H. apply repeat_length.
          + destruct (Q6 i Hi') as (H & _). unfold matrix, vec in *. rewrite H. apply (Forall_nth_lt _ _ [] i HV). vlia.
        - destruct (Hin i) as [Hi'|Hi'].
          + pose proof (Q4 i Hi') as H. destruct (Q3 i Hi') as (r & _ & H' & _). unfold matrix, vec in *. rewrite H. exact H'.
          + destruct (Q6 i Hi') as (_ & _ & H & _). unfold matrix, vec in *. rewrite H. apply (Forall_nth_lt _ _ [] i HB). vlia. }
      split; [|split; [exact Hsz|]; split; [exact Hit|rewrite Ht2, Ht1; exact Hl]].
      unfold FlightOf. rewrite Ht2, Ht1. change (pss_gbest s') with (pss_gbest s). change (pss_gfit s') with (pss_gfit s).
      eapply Fl_next; [exact HF|]. rewrite Hk. unfold Regroup. rewrite Hcomp, Hc0.
      exists far, big. split; [exact HT1|]. split; [exact HT2|].
      replace (nZ (Z.of_nat (Z.to_nat it))) with (nZ it) by (f_equal; lia). fold d. rewrite Hsw.
      exists nw. split; [exact Hnw|]. replace (0 <? nw)%Z with true by (symmetry; apply Z.ltb_lt; exact Hn).
      exists K. split; [exact Hlen|]. split; [vlia|]. split; [exact HWo|].
      constructor; auto.
      - intros i Hi. destruct (Q3 i Hi) as (r & Hr & Hli & Hxi). exists r. split; [exact Hr|]. split; [exact Hli|].
        intros j Hj. rewrite <- lows_at, <- ups_at by exact Hj. apply Hxi, Hj.
      - intros i Hi. destruct (Q6 i Hi) as (H1 & H2 & H3 & H4). auto.
    Qed.
  End Good.

  (** ** The run *)

  (** The main loop, for an invariant [I] of the loop's head and one, [J], after every step. *)
  Lemma drive_flow {S} (dr : Drv S) (cb : bool) (I J : Z -> S -> St -> Prop) :
    (forall it s st, I it s st -> wp (d_step dr (it + 1) s) (fun sc st' => J (it + 1)%Z (fst sc) st') NF st) ->
    (forall it s w w' t b, J it s (mkSt w t b) ->
        J it s (mkSt w' (t ++ [ECb (d_pop dr s) (cb_state dr it s) None]) b)) ->
    (forall it s st, J it s st -> wp (d_post dr it s) (fun s' st' => I it s' st') NF st) ->
    forall fl it s st, I it s st ->
      wp (drive dr cb fl it s) (fun res st' => exists it' s', J it' s' st' /\
            r_x res = d_x dr s' /\ r_fun res = d_fun dr s' /\ r_nit res = it') anyx st.
  Proof.
    intros Hstep Hcb Hpost. induction fl as [|fl IH]; intros it s st Hi; [exact Logic.I|].
    cbn [drive]. apply wp_bind. eapply wp_post; [apply wp_weak, (Hstep it s st Hi)|].
    intros [s' c] st' HI. cbn [fst] in HI. apply wp_bind.
    assert (HK : forall st'', J (it + 1)%Z s' st'' ->
      wp match c with
         | Some c0 => result dr (it + 1) s' c0
         | None => s0 <- d_post dr (it + 1) s';; drive dr cb fl (it + 1) s0
         end (fun res st' => exists it' s', J it' s' st' /\
            r_x res = d_x dr s' /\ r_fun res = d_fun dr s' /\ r_nit res = it') anyx st'').
    { intros st'' HI'. destruct c as [c|].
      - unfold result. destruct (message c); cbn [orelse].
        + apply wp_bind, wp_ret, wp_ret. exists (it + 1)%Z, s'. auto.
        + apply wp_bind, wp_raise. exact Logic.I.
      - apply wp_bind. eapply wp_post; [apply wp_weak, (Hpost _ _ _ HI')|]. intros s2 st2 Hi2. apply IH, Hi2. }
    apply wp_when; intros _.
    - destruct st' as [w t b]. apply wp_call_cb; [|intros; exact Logic.I].
      intros w' _. apply HK. apply (Hcb _ _ w), HI.
    - apply HK, HI.
  Qed.

  (** ** C57 *)

  (** A run of cpso that returns is a flight: from an initial swarm at rest, every further
      evaluated position is reached from the particle's last position by the velocity equation (and
      the constraint), with the particle's own best position and the swarm's best position at that
      moment; in deferred mode all particles of a generation move from the same swarm, in immediate
      mode one after the other; between two generations the swarm changes only by the restart of
      competitive pso.  The result is the swarm's best position. *)
  Theorem C57_flight A rows w a0 res st' :
    a_bounds (pa A) = D2 2 rows ->
    (forall x, a_x0 (pa A) = Some x -> nd_wf x) ->
    a_backend (pa A) <> Some "mpi"%string ->
    (truthy (pa_competitivity A) <> None -> RestartLaw (Z.to_nat (a_popsize (pa A)))) ->
    exec (cpso_minimize A) w a0 = (inl res, st') ->
    exists X V B f,
      Flight A rows (Z.to_nat (a_popsize (pa A))) (is_sync (pa_updating A) (pa A))
             (one_worker (a_workers (pa A))) false
             X V B f (r_x res) (r_fun res) (evals (tr st')) /\
      length (evals (tr st')) = Z.to_nat (r_nit res) * Z.to_nat (a_popsize (pa A)).
  Proof.
    intros Hb Hwf Hmpi HRl Hx.
    enough (H : wp (cpso_minimize A) (fun res st' => exists X V B f,
      Flight A rows (Z.to_nat (a_popsize (pa A))) (is_sync (pa_updating A) (pa A))
             (one_worker (a_workers (pa A))) false
             X V B f (r_x res) (r_fun res) (evals (tr st')) /\
      length (evals (tr st')) = Z.to_nat (r_nit res) * Z.to_nat (a_popsize (pa A))) anyx (mkSt w [] a0))
      by exact (wp_elim _ _ _ _ _ _ H Hx).
    clear Hx res st'. set (a := pa A) in *. unfold cpso_minimize. fold a.
    apply wp_bind, wp_weak, wp_check_pop. intros Hargs.
    apply wp_bind, wp_weak, wp_raise_if; [discriminate|]. intros _.
    apply wp_bind, wp_weak, wp_raise_if; [discriminate|]. intros _.
    apply wp_bind, wp_weak, wp_raise_if; [discriminate|]. intros _.
    apply wp_bind, wp_weak, wp_raise_if; [discriminate|]. intros _.
    apply wp_bind. unfold check_updating. apply wp_weak, wp_raise_if; [discriminate|]. intros _.
    apply wp_bind, wp_weak, wp_seed_and_cb. intros w1 _. cbn [tr argbuf].
    set (sync := is_sync (pa_updating A) a) in *.
    unfold cpso, eval_kindM.
    case_eq (eval_kind sync (a_workers a) (a_backend a)); [intros mode Hmode|intros e _; apply wp_bind, wp_raise; exact I].
    assert (HM : mode <> Mpi) by (apply (de_mode_not_mpi _ _ _ _ Hmode Hmpi)).
    apply wp_bind, wp_ret. apply wp_bind, wp_weak, wp_unpack_bounds. intros lower upper rows' Hb' Hlo Hup.
    rewrite Hb in Hb'. injection Hb' as <-.
    destruct (pso_cons_map (a_constraints a)) as [con|] eqn:Hcon; cbn [orelse].
    2: { apply wp_bind, wp_raise; exact I. }
    apply wp_bind, wp_ret. cbn zeta.
    set (p := Z.to_nat (a_popsize a)) in *.
    assert (Hdd : nd_len (a_bounds a) = length rows) by (rewrite Hb; reflexivity).
    rewrite Hdd.
    assert (Hpz : Z.of_nat p = a_popsize a) by (unfold p; pose proof (pao_pop a Hargs); lia).
    assert (Hp2 : 2 <= p) by (pose proof (pao_pop a Hargs); lia).
    assert (HX0 : quiet (match a_x0 a with Some x => ret (nd_rows x) | None => lhs p (length rows) lower upper end)
                        (fun X => length X = p /\ Forall (Len (length rows)) X)).
    { destruct (a_x0 a) as [x|] eqn:Hx0.
      - apply quiet_ret. destruct (pao_x0 _ Hargs _ Hx0) as (H1 & H2 & H3). specialize (Hwf x eq_refl).
        destruct x as [| |c m]; try discriminate. rewrite Hb in H2. cbn in *. subst c. split; [lia|exact Hwf].
      - apply quiet_lhs. intros y perms Hy HF Hpm. cbn zeta. split; [rewrite !map_length, seq_length; reflexivity|].
        apply Forall_forall. intros z Hz. apply in_map_iff in Hz. destruct Hz as (rw & <- & Hrow).
        apply in_map_iff in Hrow. destruct Hrow as (k & <- & _). unfold Len, lhs_scale.
        rewrite map3_length, Hlo, Hup, !map_length, map2_length, seq_length, Hpm. vlia. }
    apply wp_bind. eapply wp_conseq; [apply HX0| |intros; exact I]. cbn beta.
    intros X s1 (Ht1 & _ & HX & HXl). cbn [tr] in Ht1.
    apply wp_bind, wp_weak, wp_raise_if; [discriminate|]. intros _.
    apply wp_bind, wp_eval_pop; [apply (EnvOK_mode HE)| |intros; exact I].
    intros X' f s2 evs Hf _ Ht2 _ _ _ Hev _.
    destruct (Hev HM) as (-> & l & -> & Hpm & Hser). assert (Hf' : length f = p) by exact (eq_trans Hf HX); clear Hf; rename Hf' into Hf. clear Hev.
    match goal with |- wp (when ?b _ ;;; _) _ _ _ => set (arr := b) end.
    match goal with |- wp (when arr _ ;;; ?m) ?Q _ _ => 
      assert (Hset : (forall s3, tr s3 = tr s2 -> wp m Q anyx s3) -> wp (when arr (set_arg X) ;;; m) Q anyx s2) end.
    { intros Hk. apply wp_bind, wp_when; intros Ha.
      - apply wp_set_arg. apply Hk. reflexivity.
      - apply Hk; reflexivity. }
    apply Hset. clear Hset. intros s3 Ht3.
    apply wp_bind, wp_weak, wp_np_argmin. intros Hfne.
    apply wp_bind, wp_weak, wp_rec_alloc. intros nout Hn0 Hn1.
    apply wp_bind, wp_weak, wp_rec_write. intros r0 _.
    set (P := mkPSOParams _ _ _ _ _ _ _ _ _ _ _ _ _ _ _ _ _).
    assert (HP : PSOParamsOf A sync P).
    { constructor; cbn; auto. exists rows; auto. }
    set (s := mkPSOS X _ _ _ _ _ _ _).
    assert (HMP : ps_mode P <> Mpi) by exact HM.
    assert (HRP : truthy (pa_competitivity A) <> None -> RestartLaw (ps_p P)) by exact HRl.
    pose proof (Least_argmin A rows P sync HP f Hf) as HLe.
    assert (Hin : forall st, evals (tr st) = l -> FInv A rows P sync true 1 s st).
    { intros st Hst. unfold FInv, FlightOf, s. cbn [pss_X pss_V pss_pbest pss_pbestfit pss_gbest pss_gfit].
      rewrite Hst. split; [|split; [|split]].
      - apply Fl_start; auto. intros Hs. apply Hser. apply (serial_mode A P sync HP HMP Hs).
      - repeat split; cbn; auto.
        + apply repeat_length.
        + apply Forall_forall. intros r Hr. apply repeat_spec in Hr. subst r. apply repeat_length.
        + apply (Forall_nth_lt _ _ [] _ HXl). destruct HLe as [HLe _]. vlia.
      - lia.
      - rewrite (Permutation_length Hpm), combine_length. change (Z.to_nat 1) with 1. cbn [ps_p P]. vlia. }
    assert (Hloop : forall st, FInv A rows P sync true 1 s st ->
      wp (drive (pso_drv P sync) (has_cb a) (fuel (a_maxiter a)) 1 s)
         (fun res st' => exists X V B f,
            Flight A rows p sync (one_worker (a_workers a)) false
                   X V B f (r_x res) (r_fun res) (evals (tr st')) /\
            length (evals (tr st')) = Z.to_nat (r_nit res) * p) anyx st).
    { intros st Hi. eapply wp_post; [apply (drive_flow (pso_drv P sync) (has_cb a) (FInv A rows P sync true) (FInv A rows P sync false))|].
      - intros it sx stx HI. apply (step_flight A rows P sync Hb HP HMP it sx stx HI).
      - intros it sx wx wx' t b. unfold FInv, FlightOf. cbn [tr]. rewrite evals_app. cbn [evals]. rewrite app_nil_r. auto.
      - intros it sx stx HI. apply (post_flight A rows P sync Hb HP HRP it sx stx HI).
      - exact Hi.
      - intros res st' (it' & s' & (H1 & _ & _ & H2) & -> & -> & ->).
        exists (pss_X s'), (pss_V s'), (pss_pbest s'), (pss_pbestfit s'). split; [exact H1|exact H2]. }
    assert (Hev3 : evals (tr s3) = l) by (rewrite Ht3, Ht2, Ht1, evals_app, evals_ok; reflexivity).
    apply wp_bind, wp_when; intros Hcbv.
    - destruct s3 as [w3 t3 b3]. apply wp_call_cb; [|intros; exact I].
      intros w4 _. apply Hloop, Hin. cbn [tr] in *. rewrite evals_app. cbn [evals]. rewrite app_nil_r. exact Hev3.
    - apply Hloop, Hin, Hev3.
  Qed.

  (** pso: the same without restarts. *)
  Theorem C57_flight_pso A rows w a0 res st' :
    a_bounds (psa A) = D2 2 rows ->
    (forall x, a_x0 (psa A) = Some x -> nd_wf x) ->
    a_backend (psa A) <> Some "mpi"%string ->
    exec (pso_minimize A) w a0 = (inl res, st') ->
    exists X V B f,
      Flight (mkCPSOArgs (psa A) (psa_inertia A) (psa_cognitivity A) (psa_sociability A) None (psa_updating A))
             rows (Z.to_nat (a_popsize (psa A))) (is_sync (psa_updating A) (psa A))
             (one_worker (a_workers (psa A))) false
             X V B f (r_x res) (r_fun res) (evals (tr st')) /\
      length (evals (tr st')) = Z.to_nat (r_nit res) * Z.to_nat (a_popsize (psa A)).
  Proof.
    intros Hb Hwf Hm Hx.
    apply (C57_flight (mkCPSOArgs (psa A) (psa_inertia A) (psa_cognitivity A) (psa_sociability A) None (psa_updating A))
             rows w a0 res st' Hb Hwf Hm); [cbn; congruence|exact Hx].
  Qed.
End Flight.
