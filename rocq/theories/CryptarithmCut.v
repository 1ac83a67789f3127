(** Timeouts and limits of cryptarithms, for every source text. *)
From Verif Require Import Puzzle Queens Cryptarithm SpecPuzzle SpecFirst SpecSolve ExprFacts NameFacts DictFacts ModelFacts HistoryFacts PuzzleFacts SearchFacts SolverProps SolverMore SolverExtra PuzzleTruncate.
Open Scope list_scope.
Open Scope Z_scope.

(** ** Models made by fresh calls *)

Record tame (w : world) : Prop := Tame {
  ta_inv : inv w;
  ta_dom : domains_ok (w_model w);
  ta_code : forall id, w_code w id = None;
  ta_ids : forall c, In c (m_cons (w_model w)) -> (c_id c < w_ncon w)%nat;
  ta_bodies : forall c c', In c (m_cons (w_model w)) -> In c' (m_cons (w_model w)) -> c_id c = c_id c' -> c_body c = c_body c';
  ta_vars : forall x i, In (x, i) (m_vars (w_model w)) -> exists d, i = VVar d
}.

Lemma tame_init : tame init_world.
Proof. constructor; [apply inv_init| | | | |]; cbn; try contradiction; auto. intros x d []. Qed.

(** A new constraint object is added. *)
Lemma add_new b w : let c := Constraint (w_ncon w) b in let w1 := snd (new_constraint w b) in
  let w' := fst (add_constraint_obj c w1) in
  m_vars (w_model w') = m_vars (w_model w) /\ (m_cons (w_model w') = m_cons (w_model w) \/ m_cons (w_model w') = m_cons (w_model w) ++ [c]) /\
  w_code w' = upd (w_code w) (w_ncon w) None /\ w_ncon w' = S (w_ncon w).
Proof.
  cbn zeta. unfold add_constraint_obj. destruct (c_vars _) as [|x l]; [destruct (ceval _ _ _) as [[|]|]|]; cbn; auto.
  destruct (_ && _); cbn; auto.
Qed.

Lemma tame_new b w w' : tame w -> inv w' -> domains_ok (w_model w') -> w' = fst (add_constraint_obj (Constraint (w_ncon w) b) (snd (new_constraint w b))) -> tame w'.
Proof.
  intros [H1 H2 H3 H4 H5 H6] Hi Hd E. destruct (add_new b w) as (A1 & A2 & A3 & A4). rewrite <- E in *. constructor; auto.
  - intros id. rewrite A3. unfold upd. destruct (Nat.eqb _ _); auto.
  - intros c Hc. rewrite A4. destruct A2 as [A2|A2]; rewrite A2 in Hc; [specialize (H4 c Hc); lia|].
    apply in_app_or in Hc. destruct Hc as [Hc|[<-|[]]]; [specialize (H4 c Hc); lia|cbn; lia].
  - assert (Hin : forall c, In c (m_cons (w_model w')) -> In c (m_cons (w_model w)) \/ c = Constraint (w_ncon w) b).
    { intros c Hc. destruct A2 as [A2|A2]; rewrite A2 in Hc; [auto|]. apply in_app_or in Hc. destruct Hc as [Hc|[<-|[]]]; auto. }
    intros c c' Hc Hc' En. destruct (Hin c Hc) as [K| ->], (Hin c' Hc') as [K'| ->]; auto.
    + specialize (H4 c K). cbn in En. lia.
    + specialize (H4 c' K'). cbn in En. lia.
  - rewrite A1. exact H6.
Qed.

Lemma tame_api a w : tame w -> match a with AddInt _ _ | AddAllDiff _ | AddConstraint (ABool _) | AddConstraint (AExpr _) | AddConstraint AOther => True | _ => False end ->
  tame (fst (run_api a w)).
Proof.
  intros Ht Ha. pose proof (inv_step a w (ta_inv _ Ht)) as Hi. pose proof (domains_step a w (ta_dom _ Ht)) as Hd.
  destruct a as [d nm|nm|v nm|[b|e|c|]|xs|b|p v|b|c]; try contradiction; cbn [run_api fst drop] in *.
  - revert Hi Hd. unfold add_int_variable. destruct (has_dup d); [intros; exact Ht|]. destruct (choose_name _ _ _) as [x|]; [|intros; exact Ht].
    intros Hi Hd. destruct Ht as [H1 H2 H3 H4 H5 H6]. constructor; auto. cbn. intros y i Hin.
    assert (K : In (y, i) (m_vars (w_model w)) \/ i = VVar d).
    { clear - Hin. induction (m_vars (w_model w)) as [|[z j] l IH]; cbn [dset] in Hin; [destruct Hin as [E|[]]; inversion E; auto|].
      destruct (String.eqb x z); (destruct Hin as [E|Hin]; [inversion E; subst; auto using in_eq|]).
      - left. now right.
      - destruct (IH Hin); [left; now right|auto]. }
    destruct K as [K| ->]; eauto.
  - exact (tame_new _ w _ Ht Hi Hd eq_refl).
  - exact (tame_new _ w _ Ht Hi Hd eq_refl).
  - exact Ht.
  - exact (tame_new _ w _ Ht Hi Hd eq_refl).
Qed.

Lemma tame_formula f w : tame w -> tame (fst (add_formula f w)).
Proof.
  intros Ht. unfold add_formula. destruct (build f) as [[n|e]|ex]; [|exact (tame_api (AddConstraint (AExpr e)) w Ht Logic.I)|exact Ht].
  destruct (_ && _); [exact (tame_api (AddConstraint (ABool (truthy n))) w Ht Logic.I)|exact Ht].
Qed.

Lemma tame_int d x w : tame w -> tame (fst (int_variable d x w)).
Proof.
  intros Ht. pose proof (tame_api (AddInt d (Some x)) w Ht Logic.I) as K. unfold int_variable, op_bind. cbn [run_api] in K. unfold drop in K.
  destruct (add_int_variable d (Some x) w) as [w' [e|ex]]; exact K.
Qed.

Lemma tame_for {A B} (f : A -> op B) l : (forall a w, tame w -> tame (fst (f a w))) -> forall w, tame w -> tame (fst (op_for f l w)).
Proof.
  intros Hf. induction l as [|a l IH]; intros w Ht; [exact Ht|]. cbn [op_for]. unfold op_bind at 1. pose proof (Hf a w Ht) as K.
  destruct (f a w) as [w1 [b|ex]]; [|exact K]. unfold op_bind. specialize (IH w1 K). destruct (op_for f l w1) as [w2 [bs|ex]]; exact IH.
Qed.

Lemma tame_valid w shuffle a : tame w -> x_additional a = [] -> shuffles shuffle -> valid shuffle (new_env w) a.
Proof.
  intros [H1 H2 H3 H4 H5 H6] Ha Hs. split; [exact Hs|]. cbn [new_env e_world]. split; [|split; [exact H2|]].
  - destruct H1 as (K1 & K2 & _). split; [exact K1|]. intros x Hx. destruct (K2 x Hx) as [|(k & _ & Hk)]; eauto.
  - unfold all_cons. rewrite Ha, app_nil_r. split; [exact H5|]. intros c e f Hc Hb Hw. rewrite H3 in Hw. discriminate.
Qed.

(** The puzzle's model: the letters are variables. *)
Lemma cry_tame order source avoid w letters : cry_init order source avoid init_world = (w, Ok letters) ->
  tame w /\ forall x, In x letters -> exists d, is_variable (w_model w) x d.
Proof.
  unfold cry_init. destruct (avoid_loop avoid []) as [nz ls]. set (L := order _). set (nzl := (nz ++ cry_nonzero source)%list). cbv zeta.
  unfold op_bind at 1. match goal with |- context[op_for ?f L init_world] => pose proof (tame_for f L (fun a w' => tame_int _ a w') init_world tame_init) as T1;
    destruct (op_for f L init_world) as [w1 [xs|ex]]; [|discriminate] end.
  cbn [fst] in T1. unfold op_bind at 1. destruct (eval_source L (mod_source source)) as [f|ex]; [|discriminate].
  unfold op_bind at 1. pose proof (tame_api (AddAllDiff L) w1 T1 Logic.I) as T2. cbn [run_api] in T2.
  destruct (add_all_different_constraint L w1) as [w2 [[]|ex]] eqn:E2; [|discriminate]. cbn [fst] in T2.
  unfold op_bind. pose proof (tame_formula f w2 T2) as T3. destruct (add_formula f w2) as [w3 [[]|ex]] eqn:E3; [|discriminate]. cbn [fst] in T3.
  intros E. injection E as <- <-. split; [exact T3|]. intros x Hx.
  assert (K2 : In x (map fst (m_vars (w_model w2)))).
  { unfold add_all_different_constraint, add_constraint, add_constraint_obj in E2. cbn [new_constraint c_vars c_body] in E2.
    assert (Hx' : In x (dedup L)) by now apply dedup_In. destruct (dedup L) as [|y l] eqn:Ed; [contradiction|]. rewrite <- Ed in E2, Hx'.
    destruct (forallb _ (dedup L)) eqn:Ef; [|discriminate]. injection E2 as <-. rewrite forallb_forall in Ef. apply dmem_In. exact (Ef x Hx'). }
  assert (E : m_vars (w_model w3) = m_vars (w_model w2)).
  { unfold add_formula in E3. destruct (build f) as [[n|e]|ex]; [| |discriminate].
    - destruct (_ && _); [|discriminate]. unfold add_constraint in E3. cbn [new_constraint] in E3.
      pose proof (add_new (CConst (truthy n)) w2) as (A & _). cbn [snd new_constraint] in A. rewrite E3 in A. exact A.
    - pose proof (add_new (CExpr e) w2) as (A & _). unfold add_constraint in E3. cbn [snd new_constraint] in A, E3. rewrite E3 in A. exact A. }
  rewrite <- E in K2. apply in_map_iff in K2. destruct K2 as ([y i] & <- & K). destruct (ta_vars _ T3 y i K) as [d ->]. exists d. exact K.
Qed.

(** ** The general statement *)
Lemma run_cut {A B} clk shuffle (init : op A) (decode : A -> subst -> res B) pol t l cmp :
  shuffles shuffle ->
  (forall w obj, init init_world = (w, Ok obj) -> tame w /\ forall s, assigns (w_model w) s -> exists b, decode obj s = Ok b) ->
  cut (fun fuel => puzzle_run clk shuffle fuel init decode (new_solver pol t l cmp))
      (fun fuel => puzzle_run clk shuffle fuel init decode (new_solver pol LInfinity LInfinity cmp)) t l.
Proof.
  intros Hs Hinit f f0 bs r i bs0 r0 i0 H H0. unfold puzzle_run, construct in H, H0. destruct (init init_world) as [w [obj|ex]] eqn:Ei.
  2:{ injection H as <- <- <-. injection H0 as <- <- <-. split; [reflexivity|]. split; [exists []; reflexivity|]. split; [reflexivity|]. split; [discriminate|].
      intros _ n _ Hn. split; [now rewrite firstn_nil|]. cbn. split; [discriminate|lia]. }
  destruct (Hinit w obj eq_refl) as [Ht Hdec]. set (e := new_env w) in *.
  unfold new_solver in H, H0. cbn [lim_setter] in H0. rewrite lims_as_args in H, H0.
  set (sv := Solver pol LNone LNone cmp) in *. set (a := Args (Some (lim_setter t)) (Some (lim_setter l)) None []) in *. set (a0 := Args (Some LNone) (Some LNone) None []) in *.
  destruct (solve_all clk shuffle f e sv a) as [[[ys e'] r']|] eqn:R; [|discriminate]. destruct (solve_all clk shuffle f0 e sv a0) as [[[ys0 e0'] r0']|] eqn:R0; [|discriminate].
  assert (Hv : valid shuffle e a) by (apply tame_valid; auto). assert (Hv0 : valid shuffle e a0) by (apply tame_valid; auto).
  assert (Hm : forall zs, (forall s, In s zs -> assigns (w_model w) s) -> exists cs, mapM (decode obj) zs = Ok cs).
  { induction zs as [|z zs IH]; intros Hz; [exists []; reflexivity|]. cbn [mapM]. destruct (Hdec z (Hz z (or_introl eq_refl))) as [b ->].
    destruct IH as [cs ->]; [intros s Hin; apply Hz; now right|]. eexists; reflexivity. }
  destruct (Hm ys) as [bs' Em]; [intros s Hin; exact (proj1 (sound clk shuffle f e sv a ys e' r' Hv R s Hin))|].
  destruct (Hm ys0) as [bs0' Em0]; [intros s Hin; exact (proj1 (sound clk shuffle f0 e sv a0 ys0 e0' r0' Hv0 R0 s Hin))|].
  rewrite Em in H. rewrite Em0 in H0. injection H as <- -> <-. injection H0 as <- -> <-.
  assert (Hu : unlimited sv a0) by (split; reflexivity).
  destruct (truncation clk shuffle f f0 e sv a a0 ys ys0 e' e0' r r0 eq_refl eq_refl Hv R R0 Hu) as [[zs ->] Hc].
  destruct (mapM_app _ _ _ _ Em0) as (b1 & b2 & E1 & _ & ->). rewrite Em in E1. injection E1 as <-. pose proof (mapM_length _ _ _ Em) as El.
  assert (El' : Z.of_nat (length bs') = len ys) by (unfold len; now rewrite El).
  assert (Hl : forall n, l = Solver.LNum n -> limit_of sv a = Solver.LNum n) by (intros n ->; reflexivity).
  assert (Hnt : timeout_of sv a <> LInfinity) by (cbn; destruct t; discriminate). assert (Hnl : limit_of sv a <> LInfinity) by (cbn; destruct l; discriminate).
  split; [|split; [eauto|split; [|split]]].
  - destruct (truncation clk shuffle f0 f0 e sv a0 a0 _ _ e0' e0' r0 r0 eq_refl eq_refl Hv0 R0 R0 Hu) as [_ Hc0].
    destruct Hc0 as [(_ & _ & E & _)|[(_ & _ & n & E & _)|[(_ & _ & _ & u & j & E & _)|(_ & E & _)]]]; [exact E|discriminate E|discriminate E|exact E].
  - intros Hi. destruct Hc as [(E & _)|[(_ & E & _)|[(_ & E & _)|(_ & _ & [[E _]|[E _]])]]]; try congruence.
  - intros Hi. pose proof (interrupts clk shuffle f e sv a ys e' r Hv R) as Hint. rewrite Hi in Hint. destruct Hint as (_ & n & E & Hne & Hle & Hn).
    exists n. split; [destruct l; cbn in E; congruence|]. rewrite El'. assert (1 <= len ys) by (unfold len; destruct ys; [contradiction|cbn [length]; lia]). lia.
  - intros Hti n -> Hn. assert (Etn : timeout_of sv a = LNone) by (destruct Hti as [-> | ->]; reflexivity).
    destruct (limit_truncates clk shuffle f f0 e sv a a0 ys _ e' e0' r r0 n eq_refl eq_refl Hv R R0 Hu Etn eq_refl Hn) as (E & Ei' & _).
    split; [|rewrite El'; exact Ei'].
    assert (Hx : length bs' = length (firstn (Z.to_nat n) (bs' ++ b2))).
    { rewrite El, E at 1. rewrite !firstn_length. rewrite <- (mapM_length _ _ _ Em0). reflexivity. }
    rewrite firstn_length in Hx. rewrite firstn_app. destruct (Nat.le_gt_cases (length bs') (Z.to_nat n)) as [L|L]; [|lia].
    rewrite firstn_all2 by exact L. destruct (Nat.eq_dec (length bs') (Z.to_nat n)) as [En|En].
    + rewrite En, Nat.sub_diag, firstn_O. now rewrite app_nil_r.
    + rewrite app_length in Hx. destruct b2; [rewrite firstn_nil; now rewrite app_nil_r|cbn [length] in Hx; lia].
Qed.

Lemma cryptarithm_cut source order avoid clk shuffle o : shuffles shuffle ->
  cut (fun fuel => cry_run clk shuffle fuel order source avoid o) (fun fuel => cry_run clk shuffle fuel order source avoid (unbounded o)) (o_timeout o) (o_limit o).
Proof.
  intros Hs. unfold cry_run. apply run_cut; [exact Hs|]. intros w letters E. destruct (cry_tame _ _ _ _ _ E) as [Ht Hv]. split; [exact Ht|].
  intros s (_ & Ha & _). unfold cry_decode.
  assert (K : forall l, (forall x, In x l -> In x letters) -> exists b, mapM (fun x => let! v := get_item s x in Ok (x, v)) l = Ok b).
  { induction l as [|x l IH]; intros Hl; [eexists; reflexivity|]. cbn [mapM].
    assert (Hx : In x (map fst s)) by (apply Ha, Hv, Hl; now left). apply dmem_In in Hx. unfold dmem in Hx.
    assert (Hg : exists v, get_item s x = Ok v) by (unfold get_item; destruct (dget s x) as [v|]; [eauto|discriminate]). destruct Hg as [v ->].
    destruct IH as [b Eb]; [intros y Hy; apply Hl; now right|]. rewrite Eb. eexists; reflexivity. }
  apply K. intros x Hx. apply filter_In in Hx. now apply memb_In.
Qed.
