(** Lemmas behind Properties_Cut.v: limits and timeouts of optimisations. *)
From Coq Require Import Permutation.
From Verif Require Import Optimize SpecFormula SpecSafe SpecSolve SpecOptimize ExprFacts DictFacts SearchFacts LoopFacts
  ModelFacts CompileFacts SetupFacts SolveFacts MasterFacts TraceFacts OptimizeFacts OptimizeRun OptimizeProps SpecTimer SpecStats.
Open Scope list_scope.
Open Scope Z_scope.

Section Cut.
Variable clk : nat -> Z.
Variable shuffle : list name -> list name.
Variable consumer : nat -> world -> subst -> res world.

Notation drain := (drain clk shuffle).

(** [drain_urun], saying when the limit is not reached although the consumer may raise. *)
Definition limit_left (l : local) (n : Z) (ys : list subst) (r : option exn) : Prop :=
  forall m, l_limit l = LNum m -> ys = [] \/ n + len ys < m \/ r <> None /\ n + len ys <= Z.max m (n + 1).

Inductive cut (l : local) (c : cfg) (n : Z) (e e' : env) (ys : list subst) (r : option exn)
          (ys' : list subst) (w' : world) (r' : option exn) : Prop :=
| CutAll : ys = ys' -> r = r' -> e_world e' = w' -> e_interrupt e' = e_interrupt e -> limit_left l n ys r ->
           cut l c n e e' ys r ys' w' r'
| CutLimit m : l_limit l = LNum m -> r = None -> e_interrupt e' = Some ILimit -> ys <> [] ->
           m <= n + len ys -> (n + len ys - 1 < m \/ len ys = 1) ->
           cut l c n e e' ys r ys' w' r'
| CutTimeout t : l_timeout l = LNum t -> r = None -> e_interrupt e' = Some ITimeout -> limit_left l n ys r ->
           (exists j, e_clk e' = S j /\ t < timer_elapsed (clk j) (e_timers e' (l_timer l))) ->
           cut l c n e e' ys r ys' w' r'
| CutBad : (l_timeout l = LInfinity /\ ys = []) \/ (l_limit l = LInfinity /\ len ys = 1) -> r = Some TypeError -> e_interrupt e' = e_interrupt e ->
           cut l c n e e' ys r ys' w' r'.

Lemma drain_cut f : forall k e l c n ys e' r,
  running e (l_timer l) ->
  drain f consumer k e (GLoop l c n) = Some (ys, e', r) ->
  forall f' ys' w' r', urun (l_info l) consumer f' k (e_world e) c = Some (ys', w', r') ->
  prefix ys ys' /\ cut l c n e e' ys r ys' w' r'.
Proof.
  induction f as [f IH] using lt_wf_ind. intros k e l c n ys e' r Hrun H f' ys' w' r' Hu.
  destruct f as [|f]; [discriminate|]. destruct f' as [|f']; [discriminate|].
  rewrite drain_S in H. cbn [Solver.micro] in H. rewrite urun_S in Hu.
  destruct (g_stack c) as [|entry stk] eqn:Estk.
  { inversion H; inversion Hu; subst. split; [exists []; reflexivity|].
    apply CutAll; auto; try congruence. intros m _. auto. }
  destruct (check_timeout_cases clk e l) as [(e1 & Hc & Hw & Ht & Hi & Htm & Hclk & Hnt & Hnone)|[(t & Hto & Hc & Hel)|(Hto & Hc)]];
    rewrite Hc in H.
  - assert (Hninf : l_timeout l <> LInfinity).
    { intros E. unfold check_timeout in Hc. rewrite E in Hc. discriminate. }
    rewrite Hw in H.
    destruct (core_step (e_world e) (l_info l) c) as [c'|s c'|ex].
    + assert (Hrun1 : running e1 (l_timer l)) by (unfold running; rewrite Ht; exact Hrun).
      rewrite <- Hw in Hu.
      destruct (IH f (Nat.lt_succ_diag_r f) k e1 l c' n ys e' r Hrun1 H f' ys' w' r' Hu) as [Hp Hf].
      split; [assumption|]. destruct Hf.
      * apply CutAll; auto. congruence.
      * eapply CutLimit; eauto.
      * eapply CutTimeout; eauto.
      * apply CutBad; auto. congruence.
    + assert (Hrun1 : running e1 (l_timer l)) by (unfold running; rewrite Ht; exact Hrun).
      destruct (do_stop_running clk e1 (l_timer l) Hrun1) as (t & s0 & Hs0 & Et & Hstop).
      rewrite Hstop in H. set (e2 := tick (set_timer e1 (l_timer l) t)) in *.
      assert (Hw2 : e_world e2 = e_world e) by exact Hw. rewrite Hw2 in H.
      destruct (consumer k (e_world e) s) as [w1|ex] eqn:Ecs.
      2:{ inversion H; inversion Hu; subst. split; [exists []; reflexivity|].
          apply CutAll; auto. intros m _. right. right. split; [discriminate|]. unfold len. simpl length. lia. }
      destruct (drain f consumer (S k) (set_world e2 w1) (GYield l c' (n + 1))) as [[[zs e3] r3]|] eqn:Ed; [|discriminate].
      inversion H; subst ys e' r. clear H.
      destruct (urun (l_info l) consumer f' (S k) w1 c') as [[[zs' w3] r3']|] eqn:Eu; [|discriminate].
      simpl in Hu. inversion Hu; subst ys' w' r'. clear Hu.
      destruct f as [|f]; [discriminate|]. rewrite drain_S in Ed. cbn [Solver.micro] in Ed.
      assert (Hst : stopped (set_world e2 w1) (l_timer l)).
      { unfold stopped. simpl. rewrite upd_same. subst t. reflexivity. }
      destruct (do_start_stopped clk _ _ Hst) as (t4 & Et4 & Hstart). rewrite Hstart in Ed.
      set (e4 := tick (set_timer (set_world e2 w1) (l_timer l) t4)) in *.
      assert (Hrun4 : running e4 (l_timer l)).
      { unfold running. simpl. rewrite upd_same. subst t4. reflexivity. }
      assert (Hi4 : e_interrupt e4 = e_interrupt e) by exact Hi.
      destruct (l_limit l) as [|m|] eqn:El.
      * destruct (IH f ltac:(lia) (S k) e4 l c' (n + 1) zs e3 r3 Hrun4 Ed f' zs' w3 r3' Eu) as [(q & Hq) Hf].
        split; [exists q; simpl; now rewrite Hq|]. destruct Hf as [E1 E2 E3 E4 _|m' E _ _ _ _ _|t' E1 E2 E3 _ E5|[[E1 _]|[E1 _]] _ _].
        -- apply CutAll; auto; try congruence.
        -- congruence.
        -- eapply CutTimeout; eauto. intros m' E. congruence.
        -- contradiction.
        -- congruence.
      * destruct (Z.leb_spec m (n + 1)).
        -- inversion Ed; subst. split; [exists zs'; reflexivity|].
           eapply CutLimit with (m := m); auto; unfold len; simpl length; try lia. discriminate.
        -- destruct (IH f ltac:(lia) (S k) e4 l c' (n + 1) zs e3 r3 Hrun4 Ed f' zs' w3 r3' Eu) as [(q & Hq) Hf].
           split; [exists q; simpl; now rewrite Hq|].
           assert (Hlb : limit_left l (n + 1) zs r3 -> limit_left l n (s :: zs) r3).
           { intros Hb m' E. rewrite len_cons. rewrite El in E. injection E as <-. destruct (Hb m El) as [->|[Hlt|[Hr Hle]]]; right.
             - left. unfold len; simpl. lia.
             - left. lia.
             - right. split; [exact Hr|]. lia. }
           destruct Hf as [? ? ? ? ?|m' Hm ? ? ? ? Hor|t' ? ? ? ? ?|[[E1 _]|[E1 _]] _ _].
           ++ apply CutAll; auto; try congruence.
           ++ rewrite El in Hm. inversion Hm; subst m'.
              eapply CutLimit with (m := m); auto; try discriminate; rewrite len_cons; [lia|].
              left. destruct Hor as [|Hone]; lia.
           ++ eapply CutTimeout; eauto.
           ++ contradiction.
           ++ congruence.
      * inversion Ed; subst. split; [exists zs'; reflexivity|].
        apply CutBad; auto.
    + inversion H; inversion Hu; subst. split; [exists []; reflexivity|].
      apply CutAll; auto. intros m _. auto.
  - inversion H; subst. split; [exists ys'; reflexivity|].
    eapply CutTimeout; eauto.
    + intros m _. auto.
    + exists (e_clk e). split; [reflexivity|exact Hel].
  - inversion H; subst. split; [exists ys'; reflexivity|]. apply CutBad; auto.
Qed.

(** The run that neither limit nor timeout cuts. *)
Definition whole (w : world) (sv : solver) (a : args) : list subst * world * option exn :=
  if negb (m_solvable (w_model w)) then ([], w, None)
  else match do_setup (s_compile sv) w (x_additional a) with
       | (w', Err ex) => ([], w', Some ex)
       | (w', Ok u) =>
           match order_of shuffle sv a (w_model w) u with
           | [] => ([], w', None)
           | order =>
               match search (GInfo (u_doms u) (u_cons u) (u_ad u)) consumer order 0 w' [] with
               | (ys, w2, Ok _) => (ys, w2, None)
               | (ys, w2, Err ex) => (ys, w2, Some ex)
               end
           end
       end.

Inductive cuts (sv : solver) (a : args) (e' : env) (ys : list subst) (r : option exn)
          (ys' : list subst) (w' : world) (r' : option exn) : Prop :=
| CutsAll : ys = ys' -> r = r' -> e_world e' = w' -> e_interrupt e' = None ->
           (forall m, limit_of sv a = LNum m -> ys = [] \/ len ys < m \/ r <> None /\ len ys <= Z.max m 1) ->
           cuts sv a e' ys r ys' w' r'
| CutsLimit m : limit_of sv a = LNum m -> r = None -> e_interrupt e' = Some ILimit -> len ys = Z.max m 1 ->
           cuts sv a e' ys r ys' w' r'
| CutsTimeout t : timeout_of sv a = LNum t -> r = None -> e_interrupt e' = Some ITimeout ->
           (forall m, limit_of sv a = LNum m -> ys = [] \/ len ys < m) ->
           (exists j, e_clk e' = S j /\ t < timer_elapsed (clk j) (e_timers e' (e_timer e'))) ->
           cuts sv a e' ys r ys' w' r'
| CutsBad : (timeout_of sv a = LInfinity /\ ys = []) \/ (limit_of sv a = LInfinity /\ len ys = 1) ->
           r = Some TypeError -> e_interrupt e' = None ->
           cuts sv a e' ys r ys' w' r'.

Lemma whole_run f e sv a ys e' r ys' w' r' :
  shuffles shuffle -> well_named (w_model (e_world e)) ->
  objects (e_world e) (all_cons (w_model (e_world e)) a) ->
  drain f consumer 0 e (GInit sv a) = Some (ys, e', r) -> whole (e_world e) sv a = (ys', w', r') ->
  prefix ys ys' /\ cuts sv a e' ys r ys' w' r' /\
  t_count (e_timers e' (e_timer e')) = len ys /\
  exists segs, length segs = length ys /\
    match segs with
    | [] => True
    | (b, c) :: segs' => b = e_clk e /\ (b < c)%nat /\ ordered_from (S c) segs'
    end /\
    t_elapsed (e_timers e' (e_timer e')) = durations clk segs.
Proof.
  intros Hs Hn Ho H Hw. destruct f as [|f]; [discriminate|]. rewrite drain_init in H. cbv zeta in H. unfold whole in Hw.
  assert (Hnil : forall e1 w1 (r1 : option exn), e_world e1 = w1 -> e_interrupt e1 = None -> t_count (e_timers e1 (e_timer e1)) = 0 ->
    t_elapsed (e_timers e1 (e_timer e1)) = 0 ->
    Some ([], e1, r1) = Some (ys, e', r) -> ([], w1, r1) = (ys', w', r') ->
    prefix ys ys' /\ cuts sv a e' ys r ys' w' r' /\ t_count (e_timers e' (e_timer e')) = len ys /\
    exists segs, length segs = length ys /\
      match segs with [] => True | (b, c) :: segs' => b = e_clk e /\ (b < c)%nat /\ ordered_from (S c) segs' end /\
      t_elapsed (e_timers e' (e_timer e')) = durations clk segs).
  { intros e1 w1 r1 E1 E2 E3 E4 E5 E6. injection E5 as <- <- <-. injection E6 as <- <- <-.
    split; [exists []; reflexivity|]. split; [apply CutsAll; auto|]. split; [exact E3|]. exists []. auto. }
  destruct (m_solvable (w_model (e_world e))) eqn:Esol; cbn [negb] in H, Hw.
  2:{ eapply Hnil; [| | | |exact H|exact Hw]; cbn; rewrite ?upd_same; reflexivity. }
  destruct (do_setup (s_compile sv) (e_world e) (x_additional a)) as [w [u|ex]] eqn:Es.
  2:{ eapply Hnil; [| | | |exact H|exact Hw]; cbn; rewrite ?upd_same; reflexivity. }
  destruct (order_of shuffle sv a (w_model (e_world e)) u) as [|x names] eqn:Eo.
  { eapply Hnil; [| | | |exact H|exact Hw]; cbn; rewrite ?upd_same; reflexivity. }
  destruct (order_facts shuffle _ _ _ _ _ sv a Hs Hn Ho Es) as (Hp & Hnd & Hin). rewrite Eo in Hp, Hnd, Hin.
  set (order := x :: names) in *. assert (Hne : order <> []) by discriminate.
  set (i := GInfo (u_doms u) (u_cons u) (u_ad u)) in *.
  destruct (search i consumer order 0 w []) as [[ys0 w0] r0] eqn:Esearch.
  destruct (urun_search i consumer _ 0 w Hne Hnd) as (n & Hn'). specialize (Hn' 0%nat). rewrite Esearch in Hn'.
  assert (Hu : urun i consumer (n + 0) 0 w (Cfg [(order, [])] []) = Some (ys', w', r')).
  { rewrite Hn'. destruct r0; injection Hw as <- <- <-; reflexivity. }
  destruct (drain_cut f 0 (start_env clk e w) (run_local e sv a u) _ 0 ys e' r (start_running clk e w) H _ _ _ _ Hu) as [Hpre Hc].
  destruct (drain_stats clk shuffle consumer f 0 (start_env clk e w) (run_local e sv a u) (Cfg [(order, [])] []) 0 ys e' r (e_clk e))
    as (H1 & H2 & H3 & H4 & segs & H5 & H6 & H7); [simpl; now rewrite upd_same|simpl; lia|exact H|].
  simpl in H1, H4, H7. rewrite upd_same in H4, H7. simpl in H4, H7.
  split; [exact Hpre|]. split; [|rewrite H1; split; [exact H4|]; exists segs; split; [exact H5|]; split; [|exact H7];
    destruct segs as [|[b c] segs']; [exact I|]; destruct H6 as (-> & Hlt & Hof); auto].
  destruct Hc as [E1 E2 E3 E4 E5|m E1 E2 E3 E4 E5 E6|t E1 E2 E3 E4 E5|E1 E2 E3].
  - apply CutsAll; auto.
  - eapply CutsLimit with (m := m); auto. assert (1 <= len ys) by (destruct ys; [contradiction|rewrite len_cons; unfold len; lia]).
    destruct E6; lia.
  - eapply CutsTimeout with (t := t); auto.
    + intros m Hm. destruct (E4 m Hm) as [|[|[Hx _]]]; auto. now rewrite E2 in Hx.
    + rewrite H1. exact E5.
  - apply CutsBad; auto.
Qed.

End Cut.

Lemma whole_same shuffle consumer w sv1 sv2 a1 a2 : s_compile sv1 = s_compile sv2 -> policy_of sv1 a1 = policy_of sv2 a2 ->
  x_additional a1 = x_additional a2 -> whole shuffle consumer w sv1 a1 = whole shuffle consumer w sv2 a2.
Proof.
  intros H1 H2 H3. unfold whole. rewrite H1, H3. destruct (negb _); [reflexivity|].
  destruct (do_setup _ _ _) as [w' [u|]]; [|reflexivity]. unfold order_of. unfold policy_of in H2. now rewrite H2.
Qed.

Section Two.
Variables (clk1 clk2 : nat -> Z) (shuffle : list name -> list name).
Variables (f1 f2 : nat) (e1 e2 : env) (sv1 sv2 : solver) (os : list oarg) (a1 a2 : args).
Variables (ys1 ys2 : list subst) (e1' e2' : env) (r1 r2 : option exn).
Hypothesis Hw : e_world e1 = e_world e2.
Hypothesis Hc : s_compile sv1 = s_compile sv2.
Hypothesis Hp : policy_of sv1 a1 = policy_of sv2 a2.
Hypothesis Ha : x_additional a1 = x_additional a2.
Hypothesis Hv : opt_valid shuffle e1 os a1.
Hypothesis H1 : optimize_all clk1 shuffle f1 e1 sv1 os a1 = Some (ys1, e1', r1).
Hypothesis H2 : optimize_all clk2 shuffle f2 e2 sv2 os a2 = Some (ys2, e2', r2).
Hypothesis Hu : unlimited sv2 a2.

Lemma two_cut :
  (In OOther os /\ ys1 = [] /\ ys2 = [] /\ r1 = Some ValueError /\ r2 = Some ValueError /\ e_interrupt e1' = e_interrupt e1 /\
    e_world e1' = e_world e2') \/
  (prefix ys1 ys2 /\ cuts clk1 sv1 a1 e1' ys1 r1 ys2 (e_world e2') r2).
Proof.
  unfold optimize_all in H1, H2. rewrite <- Hw in H2.
  destruct (make_constraints os (e_world e1)) as [wA [oms|ex]] eqn:Emk.
  - right. destruct (made_facts shuffle e1 os a1 Hv wA oms Emk) as (_ & HnA & _).
    pose proof (made_objects shuffle e1 os a1 Hv wA oms Emk) as Ho.
    assert (Hs : shuffles shuffle) by exact (proj1 (proj1 Hv)).
    set (con := fun (_ : nat) w s => add_solutions oms w s) in *.
    destruct (whole shuffle con wA sv1 (with_objectives a1 oms)) as [[ys' w'] r'] eqn:Ewh.
    destruct (whole_run clk1 shuffle con f1 (set_world e1 wA) sv1 (with_objectives a1 oms) ys1 e1' r1 ys' w' r' Hs HnA Ho H1 Ewh) as (P1 & C1 & _).
    assert (Ewh2 : whole shuffle con wA sv2 (with_objectives a2 oms) = (ys', w', r')).
    { rewrite <- Ewh. symmetry. apply whole_same; [exact Hc|exact Hp|]. cbn [with_objectives x_additional]. now rewrite Ha. }
    assert (Ho2 : objects (e_world (set_world e2 wA)) (all_cons (w_model (e_world (set_world e2 wA))) (with_objectives a2 oms))).
    { cbn [e_world set_world]. unfold all_cons, with_objectives in *. cbn [x_additional] in *. rewrite <- Ha. exact Ho. }
    destruct (whole_run clk2 shuffle con f2 (set_world e2 wA) sv2 (with_objectives a2 oms) ys2 e2' r2 ys' w' r' Hs HnA Ho2 H2 Ewh2) as (P2 & C2 & _).
    destruct Hu as [Ht Hl].
    change (timeout_of sv2 (with_objectives a2 oms) = LNone) in Ht. change (limit_of sv2 (with_objectives a2 oms) = LNone) in Hl.
    destruct C2 as [E1 E2 E3 _ _|m E|t E|[[E _]|[E _]]]; try congruence.
    rewrite E1, E2, E3. split; [exact P1|]. destruct C1; [eapply CutsAll|eapply CutsLimit|eapply CutsTimeout|eapply CutsBad]; eauto.
  - left. injection H1 as <- <- <-. injection H2 as <- <- <-.
    destruct (make_constraints_spec os (e_world e1) wA (Err ex) (proj1 (proj2 Hv)) Emk) as (_ & _ & _ & -> & Hin). repeat split; auto.
Qed.

Lemma opt_truncated :
  prefix ys1 ys2 /\
  match r1 with
  | Some ex => ys1 = ys2 /\ r2 = Some ex \/
      ex = TypeError /\ (timeout_of sv1 a1 = LInfinity /\ ys1 = [] \/ limit_of sv1 a1 = LInfinity /\ len ys1 = 1)
  | None =>
      match e_interrupt e1' with
      | None => ys1 = ys2 /\ r2 = None /\ e_world e1' = e_world e2'
      | Some ILimit => exists n, limit_of sv1 a1 = LNum n /\ len ys1 = Z.max n 1
      | Some ITimeout => exists t j, timeout_of sv1 a1 = LNum t /\ e_clk e1' = S j /\
                           let tm := e_timers e1' (e_timer e1') in
                           t < t_elapsed tm + match t_start tm with Some b => clk1 j - b | None => 0 end
      end
  end /\
  (forall n, limit_of sv1 a1 = LNum n ->
     len ys1 <= Z.max n 1 /\ (r1 = None -> len ys1 = Z.max n 1 -> e_interrupt e1' = Some ILimit)).
Proof.
  destruct two_cut as [(_ & -> & -> & -> & -> & _ & _)|[P C]].
  { split; [exists []; reflexivity|]. split; [auto|]. intros n _. unfold len. simpl. split; [lia|discriminate]. }
  split; [exact P|].
  destruct C as [E1 E2 E3 E4 E5|m E1 E2 E3 E4|t E1 E2 E3 E4 (j & Ej)|E1 E2 E3].
  - rewrite E4. split; [destruct r1; [left; auto|auto]|].
    intros n Hn. destruct (E5 n Hn) as [->|[Hlt|[Hr Hle]]].
    + unfold len. simpl. split; [lia|]. lia.
    + split; [lia|]. lia.
    + split; [exact Hle|]. contradiction.
  - rewrite E2, E3. split; [eauto|]. intros n Hn. rewrite E1 in Hn. injection Hn as <-. split; [lia|reflexivity].
  - rewrite E2, E3. split; [exists t, j; destruct Ej as [Ej Hel]; unfold timer_elapsed in Hel; split; [exact E1|]; split; [exact Ej|]; cbv zeta;
      destruct (t_start _); lia|]. intros n Hn. destruct (E4 n Hn) as [->|Hlt]; [unfold len; simpl|]; split; lia.
  - rewrite E2. split; [right; split; [reflexivity|]; exact E1|]. intros n Hn. destruct E1 as [[_ ->]|[E1 _]]; [|congruence].
    unfold len. simpl. split; [lia|discriminate].
Qed.

End Two.

Lemma opt_stats clk shuffle f e sv os a ys e' r : opt_valid shuffle e os a -> ~ In OOther os ->
  optimize_all clk shuffle f e sv os a = Some (ys, e', r) ->
  fst (fst (get_stats e')) = len ys /\
  exists segs, length segs = length ys /\
    match segs with
    | [] => True
    | (b, c) :: segs' => b = e_clk e /\ (b < c)%nat /\ ordered_from (S c) segs'
    end /\
    snd (fst (get_stats e')) = durations clk segs.
Proof.
  intros Hv Hno H. unfold optimize_all in H.
  destruct (make_constraints os (e_world e)) as [wA [oms|ex]] eqn:Emk.
  - destruct (made_facts shuffle e os a Hv wA oms Emk) as (_ & HnA & _).
    pose proof (made_objects shuffle e os a Hv wA oms Emk) as Ho.
    set (con := fun (_ : nat) w s => add_solutions oms w s) in *.
    destruct (whole shuffle con wA sv (with_objectives a oms)) as [[ys' w'] r'] eqn:Ewh.
    exact (proj2 (proj2 (whole_run clk shuffle con f (set_world e wA) sv (with_objectives a oms) ys e' r ys' w' r'
      (proj1 (proj1 Hv)) HnA Ho H Ewh))).
  - exfalso. apply Hno. destruct (make_constraints_spec os (e_world e) wA (Err ex) (proj1 (proj2 Hv)) Emk) as (_ & _ & _ & _ & Hin). exact Hin.
Qed.
