(** Timeouts and limits of puzzle objects. *)
From Verif Require Import Puzzle SpecPuzzle SpecFirst SpecSolve NameFacts DictFacts PuzzleFacts SearchFacts SolverProps SolverExtra.
Open Scope list_scope.
Open Scope Z_scope.

(** Limits of the solver object and limits given to [solve]. *)
Lemma lims_as_args clk shuffle f e p t l c :
  solve_all clk shuffle f e (Solver p t l c) no_args = solve_all clk shuffle f e (Solver p LNone LNone c) (Args (Some t) (Some l) None []).
Proof. unfold solve_all. destruct f as [|f]; reflexivity. Qed.

Lemma mapM_app {A B} (f : A -> res B) : forall l l' bs, mapM f (l ++ l') = Ok bs -> exists b1 b2, mapM f l = Ok b1 /\ mapM f l' = Ok b2 /\ bs = b1 ++ b2.
Proof.
  induction l as [|a l IH]; intros l' bs H; [exists [], bs; auto|]. cbn [app mapM] in *. destruct (f a) as [b|]; [|discriminate]. cbn [bind] in *.
  destruct (mapM f (l ++ l')) as [bs'|] eqn:E; [|discriminate]. cbn [bind] in H. injection H as <-. destruct (IH l' bs' E) as (b1 & b2 & -> & E2 & ->).
  exists (b :: b1), b2. auto.
Qed.
Lemma mapM_length {A B} (f : A -> res B) : forall l bs, mapM f l = Ok bs -> length bs = length l.
Proof.
  induction l as [|a l IH]; intros bs H; [injection H as <-; reflexivity|]. cbn [mapM] in H. destruct (f a) as [b|]; [|discriminate]. cbn [bind] in H.
  destruct (mapM f l) as [bs'|]; [|discriminate]. injection H as <-. cbn. f_equal. now apply IH.
Qed.

Lemma puzzle_cut {A B} clk shuffle (init : op A) (obj : A) V C (decode : A -> subst -> res B) pol t l cmp ok ok0 t0 l0 :
  adds (fun _ : nat => 0) [] init obj V C -> shuffles shuffle ->
  exactly (fun fuel => puzzle_run clk shuffle fuel init decode (new_solver pol t l cmp)) ok t l ->
  exactly (fun fuel => puzzle_run clk shuffle fuel init decode (new_solver pol LInfinity LInfinity cmp)) ok0 t0 l0 ->
  cut (fun fuel => puzzle_run clk shuffle fuel init decode (new_solver pol t l cmp))
      (fun fuel => puzzle_run clk shuffle fuel init decode (new_solver pol LInfinity LInfinity cmp)) t l.
Proof.
  intros Hadds Hs [_ Hex] [_ Hex0] f f0 bs r i bs0 r0 i0 H H0. pose proof (proj1 (Hex _ _ _ _ H)) as Er. pose proof (proj1 (Hex0 _ _ _ _ H0)) as Er0. subst r r0.
  destruct (adds_construct init obj V C Hadds) as (e & Ec & Hb). unfold puzzle_run in H, H0. rewrite Ec in H, H0.
  unfold new_solver in H, H0. cbn [lim_setter] in H0. rewrite lims_as_args in H, H0.
  set (sv := Solver pol LNone LNone cmp) in *. set (a := Args (Some (lim_setter t)) (Some (lim_setter l)) None []) in *. set (a0 := Args (Some LNone) (Some LNone) None []) in *.
  destruct (solve_all clk shuffle f e sv a) as [[[ys e'] r]|] eqn:R; [|discriminate]. destruct (solve_all clk shuffle f0 e sv a0) as [[[ys0 e0'] r0]|] eqn:R0; [|discriminate].
  destruct (mapM (decode obj) ys) as [bs'|ex] eqn:Em; [|discriminate]. destruct (mapM (decode obj) ys0) as [bs0'|ex] eqn:Em0; [|discriminate].
  injection H as <- -> <-. injection H0 as <- -> <-.
  assert (Hv : valid shuffle e a) by exact (built_valid (fun _ => 0) e V C shuffle Hb Hs).
  assert (Hv0 : valid shuffle e a0) by exact (built_valid (fun _ => 0) e V C shuffle Hb Hs).
  assert (Hu : unlimited sv a0) by (split; reflexivity).
  destruct (truncation clk shuffle f f0 e sv a a0 ys ys0 e' e0' None None eq_refl eq_refl Hv R R0 Hu) as [[zs ->] Hc].
  destruct (mapM_app _ _ _ _ Em0) as (b1 & b2 & E1 & _ & ->). rewrite Em in E1. injection E1 as <-. pose proof (mapM_length _ _ _ Em) as El.
  assert (El' : Z.of_nat (length bs') = len ys) by (unfold len; now rewrite El).
  assert (Hl : forall n, l = LNum n -> limit_of sv a = LNum n) by (intros n ->; reflexivity).
  split; [|split; [eauto|split; [|split]]].
  - destruct (truncation clk shuffle f0 f0 e sv a0 a0 _ _ e0' e0' None None eq_refl eq_refl Hv0 R0 R0 Hu) as [_ Hc0].
    destruct Hc0 as [(_ & _ & E & _)|[(_ & _ & n & E & _)|[(_ & _ & _ & u & j & E & _)|(E & _)]]]; [exact E|discriminate E|discriminate E|discriminate E].
  - intros Hi. destruct Hc as [(E & _)|[(_ & E & _)|[(_ & E & _)|(E & _)]]]; try congruence.
  - intros Hi. pose proof (interrupts clk shuffle f e sv a ys e' None Hv R) as Hint. rewrite Hi in Hint. destruct Hint as (_ & n & E & Hne & Hle & Hn).
    exists n. split; [destruct l; cbn in E; congruence|]. rewrite El'. assert (1 <= len ys) by (unfold len; destruct ys; [contradiction|cbn [length]; lia]). lia.
  - intros Ht n -> Hn. assert (Etn : timeout_of sv a = LNone) by (destruct Ht as [-> | ->]; reflexivity).
    destruct (limit_truncates clk shuffle f f0 e sv a a0 ys _ e' e0' None None n eq_refl eq_refl Hv R R0 Hu Etn eq_refl Hn) as (E & Ei & _).
    split; [|rewrite El'; exact Ei].
    assert (Hx : length bs' = length (firstn (Z.to_nat n) (bs' ++ b2))).
    { rewrite El, E at 1. rewrite !firstn_length. rewrite <- (mapM_length _ _ _ Em0). reflexivity. }
    rewrite firstn_length in Hx. rewrite firstn_app. destruct (Nat.le_gt_cases (length bs') (Z.to_nat n)) as [L|L]; [|lia].
    rewrite firstn_all2 by exact L. destruct (Nat.eq_dec (length bs') (Z.to_nat n)) as [En|En].
    + rewrite En, Nat.sub_diag, firstn_O. now rewrite app_nil_r.
    + rewrite app_length in Hx. destruct b2; [rewrite firstn_nil; now rewrite app_nil_r|cbn [length] in Hx; lia].
Qed.
