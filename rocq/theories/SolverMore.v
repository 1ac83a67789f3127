(** More lemmas behind Properties_Solver.v: comparing runs, mathematical truth. *)
From Coq Require Import Permutation.
From Verif Require Import Solver SpecFormula SpecSafe SpecSolve ExprFacts DictFacts ModelFacts CompileFacts SafeFacts CodeFacts
  SearchFacts LoopFacts EnumFacts SetupFacts SolveFacts MasterFacts HistoryFacts SolverProps.
Open Scope list_scope.
Open Scope Z_scope.

(** ** Lists of solutions up to order *)

Lemma same_sym s t : same_dict s t -> same_dict t s.
Proof. intros H x. symmetry. apply H. Qed.
Lemma same_trans s t u : same_dict s t -> same_dict t u -> same_dict s u.
Proof. intros H1 H2 x. rewrite H1. apply H2. Qed.

Lemma FOP_remove {A} (R : A -> A -> Prop) l1 x l2 :
  ForallOrdPairs R (l1 ++ x :: l2) -> (forall a b, R a b -> R b a) ->
  ForallOrdPairs R (l1 ++ l2) /\ forall y, In y (l1 ++ l2) -> R x y.
Proof.
  intros H Hsym. induction l1 as [|a l1 IH]; simpl in *.
  - inversion H; subst. split; [assumption|]. now apply Forall_forall.
  - inversion H; subst. destruct (IH H3) as [H4 H5]. split.
    + constructor; [|assumption]. apply Forall_app in H2. destruct H2 as [H2 H2']. inversion H2'; subst.
      apply Forall_app. auto.
    + intros y [<-|Hy]; [|now apply H5]. apply Forall_app in H2. destruct H2 as [_ H2]. inversion H2; subst. auto.
Qed.

Lemma same_solutions_intro : forall zs ys,
  ForallOrdPairs (fun s s' => ~ same_dict s s') ys -> ForallOrdPairs (fun s s' => ~ same_dict s s') zs ->
  (forall y, In y ys -> exists z, In z zs /\ same_dict y z) ->
  (forall z, In z zs -> exists y, In y ys /\ same_dict y z) -> same_solutions ys zs.
Proof.
  assert (Hsy : forall a b, ~ same_dict a b -> ~ same_dict b a) by (intros a b H E; apply H; now apply same_sym).
  induction zs as [|z zs IH]; intros ys Hy Hz H1 H2.
  - destruct ys as [|y ys]; [exists []; split; constructor|]. destruct (H1 y (or_introl eq_refl)) as (? & [] & _).
  - destruct (H2 z (or_introl eq_refl)) as (y & Hin & Hyz). apply in_split in Hin. destruct Hin as (l1 & l2 & ->).
    destruct (FOP_remove _ _ _ _ Hy Hsy) as [Hy' Hny]. inversion Hz as [|? ? Hnz Hz']; subst.
    rewrite Forall_forall in Hnz.
    destruct (IH (l1 ++ l2) Hy' Hz') as (ys' & Hp & Hf).
    + intros y' Hy1. destruct (H1 y') as (z' & [<-|Hz1] & Hs).
      * apply in_app_or in Hy1. apply in_or_app. simpl. tauto.
      * exfalso. apply (Hny y' Hy1). eapply same_trans; [exact Hyz|]. now apply same_sym.
      * eauto.
    + intros z' Hz1. destruct (H2 z' (or_intror Hz1)) as (y' & Hy1 & Hs). exists y'. split; [|exact Hs].
      apply in_app_or in Hy1. apply in_or_app. destruct Hy1 as [|[<-|]]; auto.
      exfalso. apply (Hnz z' Hz1). eapply same_trans; [apply same_sym, Hyz|exact Hs].
    + exists (y :: ys'). split; [|now constructor]. symmetry. etransitivity; [|apply Permutation_middle].
      constructor. now symmetry.
Qed.

(** ** Codes after compilation *)

Lemma compile_all_false w cs : compile_all false w cs = w.
Proof. revert w. induction cs as [|c cs IH]; intros w; [reflexivity|]. apply IH. Qed.

Lemma compile_all_in w cs c e :
  In c cs -> c_body c = CExpr e -> (forall c', In c' cs -> c_id c' = c_id c -> c_body c' = c_body c) ->
  w_code (compile_all true w cs) (c_id c) = Some (as_function (w_par w) e).
Proof.
  intros Hin Hb. induction cs as [|c1 cs IH] using rev_ind; [contradiction|]. intros Hid.
  rewrite compile_all_app. cbn [compile_all fold_left]. unfold compile1, ccompile.
  destruct (Nat.eq_dec (c_id c1) (c_id c)) as [E|E].
  - rewrite (Hid c1), Hb by (try assumption; apply in_or_app; right; now left). cbn [w_code]. rewrite E, upd_same.
    change (fold_left (compile1 true) cs w) with (compile_all true w cs). now rewrite compile_all_par.
  - assert (Hin' : In c cs).
    { apply in_app_or in Hin. destruct Hin as [|[->|[]]]; [assumption|congruence]. }
    assert (Hid' : forall c', In c' cs -> c_id c' = c_id c -> c_body c' = c_body c).
    { intros c' Hc'. apply Hid. apply in_or_app. now left. }
    rewrite <- (IH Hin' Hid'). destruct (c_body c1); try reflexivity. cbn [w_code]. now rewrite upd_other by congruence.
Qed.

Lemma compile_all_agree cmp w w' cs cs' c s :
  In c cs -> In c cs' -> w_par w = w_par w' -> (cmp = false -> w_code w (c_id c) = w_code w' (c_id c)) ->
  (forall c', In c' cs -> c_id c' = c_id c -> c_body c' = c_body c) ->
  (forall c', In c' cs' -> c_id c' = c_id c -> c_body c' = c_body c) ->
  ceval (compile_all cmp w cs) c s = ceval (compile_all cmp w' cs') c s.
Proof.
  intros H1 H2 Hp Hc Hid Hid'. apply ceval_code; [now rewrite !compile_all_par|]. intros e Hb. destruct cmp.
  - rewrite (compile_all_in w cs c e), (compile_all_in w' cs' c e) by assumption. now rewrite Hp.
  - rewrite !compile_all_false. now apply Hc.
Qed.

(** ** Setting up from two worlds *)

Lemma setup_step_agree cmp w w' u c :
  w_par w = w_par w' -> (cmp = false -> w_code w (c_id c) = w_code w' (c_id c)) ->
  snd (setup_step cmp w u c) = snd (setup_step cmp w' u c).
Proof.
  intros Hp Hc.
  assert (Hev : forall s, ceval (compile1 cmp w c) c s = ceval (compile1 cmp w' c) c s).
  { intros s. apply ceval_code; [now rewrite !compile1_par|]. intros e Hb. unfold compile1, ccompile. rewrite Hb.
    destruct cmp; [cbn; now rewrite !upd_same, Hp|auto]. }
  unfold setup_step. fold (compile1 cmp w c). fold (compile1 cmp w' c).
  destruct (c_body c); try reflexivity; destruct (c_vars c) as [|x [|y l]]; try reflexivity;
    destruct (dget (u_doms u) x) as [d|]; try reflexivity.
  all: assert (Hfm : forall d, filterM (fun v => ceval (compile1 cmp w c) c [(x, v)]) d =
                     filterM (fun v => ceval (compile1 cmp w' c) c [(x, v)]) d)
    by (induction d0 as [|v d0 IH]; [reflexivity|]; simpl; rewrite Hev, IH; reflexivity).
  all: rewrite Hfm; destruct (filterM _ d); reflexivity.
Qed.

Lemma setup_loop_agree cmp cs : forall w w' u,
  w_par w = w_par w' -> (cmp = false -> forall id, w_code w id = w_code w' id) ->
  snd (setup_loop cmp w u cs) = snd (setup_loop cmp w' u cs).
Proof.
  induction cs as [|c cs IH]; intros w w' u Hp Hc; [reflexivity|]. cbn [setup_loop].
  pose proof (setup_step_agree cmp w w' u c Hp (fun E => Hc E (c_id c))) as Hs.
  pose proof (setup_step_world cmp w u c) as H1. pose proof (setup_step_world cmp w' u c) as H2.
  destruct (setup_step cmp w u c) as [w1 [u1|x1]]; destruct (setup_step cmp w' u c) as [w2 [u2|x2]];
    simpl in Hs, H1, H2; inversion Hs; subst; [|reflexivity].
  apply IH; [now rewrite !compile1_par|]. intros -> id. apply Hc. reflexivity.
Qed.

Lemma do_setup_agree cmp w w' add :
  w_par w = w_par w' -> w_model w = w_model w' -> (cmp = false -> forall id, w_code w id = w_code w' id) ->
  snd (do_setup cmp w add) = snd (do_setup cmp w' add).
Proof.
  intros Hp Hm Hc. unfold do_setup. rewrite Hm.
  pose proof (setup_loop_agree cmp (m_cons (w_model w') ++ add) w w'
    (Setup (pure_variables (m_vars (w_model w'))) [] [] (map (fun p => (fst p, 0)) (pure_variables (m_vars (w_model w')))) [] []) Hp Hc) as Hl.
  destruct (setup_loop cmp w _ _) as [w1 [u1|x1]]; destruct (setup_loop cmp w' _ _) as [w2 [u2|x2]];
    simpl in Hl; inversion Hl; subst; [|reflexivity].
  destruct (check_groups _ _); reflexivity.
Qed.

(** ** Searching in two worlds *)

Lemma accept_agree w w' i x s v :
  (forall c s, In c (dget_or (i_cons i) x []) -> ceval w c s = ceval w' c s) ->
  accept w i x s v = accept w' i x s v.
Proof.
  intros H. unfold accept. destruct (existsb _ _); [reflexivity|].
  induction (dget_or (i_cons i) x []) as [|c cs IH]; [reflexivity|]. simpl. unfold unsatisfied.
  rewrite (H c) by now left. destruct (if forallb _ _ then _ else _) as [[|]|]; try reflexivity. apply IH. intros c' s' Hc'. apply H. now right.
Qed.

Lemma search_agree w w' i xs : (forall x c s, In c (dget_or (i_cons i) x []) -> ceval w c s = ceval w' c s) ->
  forall k s ys r, search i passive xs k w s = (ys, w, r) -> search i passive xs k w' s = (ys, w', r).
Proof.
  intros Hev. assert (Hgen : forall k s, exists ys r, search i passive xs k w s = (ys, w, r) /\ search i passive xs k w' s = (ys, w', r)).
  { induction xs as [|x rest IH]; intros k s; [exists [s], (Ok (S k)); split; reflexivity|]. cbn [search].
    assert (Hfd : filter_domain w i x s = filter_domain w' i x s).
    { unfold filter_domain. destruct (dget (i_doms i) x) as [d|]; [|reflexivity].
      induction d as [|v d IHd]; [reflexivity|]. simpl. rewrite (accept_agree w w') by (intros; now apply (Hev x)).
      rewrite IHd. reflexivity. }
    rewrite Hfd. destruct (filter_domain w' i x s) as [d|ex]; [|exists [], (Err ex); split; reflexivity].
    clear Hfd. revert k. induction d as [|v d IHd]; intros k; [exists [], (Ok k); split; reflexivity|]. cbn [values].
    destruct (IH k (dset s x v)) as (ys1 & r1 & E1 & E2). rewrite E1, E2. destruct r1 as [k1|ex]; [|eauto].
    destruct (IHd k1) as (ys2 & r2 & E3 & E4). rewrite E3, E4. eauto. }
  intros k s ys r H. destruct (Hgen k s) as (ys1 & r1 & E1 & E2). rewrite H in E1. inversion E1; subst. exact E2.
Qed.

(** ** Runs *)

Lemma run_world clk shuffle f e sv a ys e' r :
  valid shuffle e a -> solve_all clk shuffle f e sv a = Some (ys, e', r) ->
  e_world e' = if m_solvable (w_model (e_world e))
               then fst (do_setup (s_compile sv) (e_world e) (x_additional a)) else e_world e.
Proof.
  intros (Hs & Hn & _ & Ho) H.
  destruct (run_spec clk shuffle f e sv a ys e' r Hs Hn Ho H)
    as [Hsol -> -> ->|w ex Hsol Es -> -> ->|w u Hsol Es Eo -> -> ->|w u f' ys0 r0 Hsol Es Eo Esearch Ed Hp Hf Hw];
  rewrite Hsol, ?Es; try reflexivity. exact Hw.
Qed.

Lemma solves_world w w' m cs s :
  (forall c, In c cs -> concerns m c -> ceval w c s = ceval w' c s) ->
  solves (evaluates_true w) m cs s -> solves (evaluates_true w') m cs s.
Proof.
  intros H [Ha Hc]. split; [exact Ha|]. intros c Hin Hcc. unfold evaluates_true in *. rewrite <- H by assumption. now apply Hc.
Qed.

Lemma policy_independent clk1 clk2 shuffle1 shuffle2 f1 f2 e sv1 sv2 a1 a2 ys1 ys2 e1 e2 r1 r2 :
  valid shuffle1 e a1 -> shuffles shuffle2 ->
  s_compile sv1 = s_compile sv2 -> x_additional a1 = x_additional a2 ->
  unlimited sv1 a1 -> unlimited sv2 a2 ->
  no_raise (ceval (e_world e1)) (w_model (e_world e)) (all_cons (w_model (e_world e)) a1) ->
  groups_ok (w_model (e_world e)) (all_cons (w_model (e_world e)) a1) ->
  solve_all clk1 shuffle1 f1 e sv1 a1 = Some (ys1, e1, r1) ->
  solve_all clk2 shuffle2 f2 e sv2 a2 = Some (ys2, e2, r2) ->
  same_solutions ys1 ys2 /\ r1 = None /\ r2 = None.
Proof.
  intros Hv1 Hs2 Hcmp Hadd Hu1 Hu2 Hnr Hg H1 H2.
  assert (Hv2 : valid shuffle2 e a2).
  { destruct Hv1 as (h1 & h2 & h3 & h4). unfold all_cons in h4. rewrite Hadd in h4. exact (conj Hs2 (conj h2 (conj h3 h4))). }
  assert (Hw : e_world e1 = e_world e2).
  { rewrite (run_world _ _ _ _ _ _ _ _ _ Hv1 H1), (run_world _ _ _ _ _ _ _ _ _ Hv2 H2). now rewrite Hcmp, Hadd. }
  assert (Hcs : all_cons (w_model (e_world e)) a2 = all_cons (w_model (e_world e)) a1) by (unfold all_cons; now rewrite Hadd).
  destruct (unlimited_end _ _ _ _ _ _ _ _ _ Hv1 H1 Hu1 Hnr Hg) as [Hr1 Hi1].
  assert (Hnr2 := Hnr). rewrite Hw, <- Hcs in Hnr2. assert (Hg2 := Hg). rewrite <- Hcs in Hg2.
  destruct (unlimited_end _ _ _ _ _ _ _ _ _ Hv2 H2 Hu2 Hnr2 Hg2) as [Hr2 Hi2].
  split; [|auto].
  assert (Hempty : ys1 <> [] \/ ys2 <> [] -> m_solvable (w_model (e_world e)) = true /\ has_variable (w_model (e_world e))).
  { intros [Hne|Hne];
      [destruct (run_cases _ _ _ _ _ _ _ _ _ Hv1 H1) as [(E & _)|(A & B & _)]|
       destruct (run_cases _ _ _ _ _ _ _ _ _ Hv2 H2) as [(E & _)|(A & B & _)]]; (contradiction || auto). }
  apply same_solutions_intro.
  - exact (distinct _ _ _ _ _ _ _ _ _ Hv1 H1).
  - exact (distinct _ _ _ _ _ _ _ _ _ Hv2 H2).
  - intros y Hy. destruct Hempty as [Hsol Hhv]; [left; intros ->; contradiction|].
    destruct (exhaustive _ _ _ _ _ _ _ _ _ Hv2 H2 Hsol Hhv Hr2 Hi2 y) as (s & Hs & Hsame).
    + rewrite Hcs, <- Hw. exact (sound _ _ _ _ _ _ _ _ _ Hv1 H1 y Hy).
    + exists s. split; [assumption|now apply same_sym].
  - intros z Hz. destruct Hempty as [Hsol Hhv]; [right; intros ->; contradiction|].
    destruct (exhaustive _ _ _ _ _ _ _ _ _ Hv1 H1 Hsol Hhv Hr1 Hi1 z) as (s & Hs & Hsame); [|eauto].
    rewrite <- Hcs, Hw. exact (sound _ _ _ _ _ _ _ _ _ Hv2 H2 z Hz).
Qed.

(** *** Additional constraints *)

Definition without (a : args) : args := Args (x_timeout a) (x_limit a) (x_policy a) [].

Lemma valid_without shuffle e a : valid shuffle e a -> valid shuffle e (without a).
Proof.
  intros (h1 & h2 & h3 & [h4 h5]). split; [exact h1|]. split; [exact h2|]. split; [exact h3|].
  unfold all_cons in *. simpl. rewrite app_nil_r. split.
  - intros c c' Hc Hc'. apply h4; apply in_or_app; now left.
  - intros c e0 f Hc. apply h5. apply in_or_app. now left.
Qed.

Lemma same_eval shuffle e a w t s c : valid shuffle e a -> objects w (all_cons (w_model (e_world e)) a) ->
  In c (all_cons (w_model (e_world e)) a) -> concerns (w_model (e_world e)) c -> same_dict s t -> ceval w c s = ceval w c t.
Proof.
  intros (_ & Hn & _ & _) Ho Hc Hcc Hsame. apply (locals w _ _ Hn Ho c Hc Hcc). intros x _. apply Hsame.
Qed.

Lemma objects_run clk shuffle f e sv a ys e' r :
  valid shuffle e a -> solve_all clk shuffle f e sv a = Some (ys, e', r) ->
  objects (e_world e') (all_cons (w_model (e_world e)) a).
Proof.
  intros Hv H. rewrite (run_world _ _ _ _ _ _ _ _ _ Hv H). destruct Hv as (_ & _ & _ & Ho).
  destruct (m_solvable _); [|exact Ho].
  destruct (do_setup_world (s_compile sv) (e_world e) (x_additional a)) as (pre & post & E & ->).
  destruct Ho as [Hid Hc]. split; [exact Hid|]. intros c e0 f0 Hin Hb Hf.
  fold (all_cons (w_model (e_world e)) a) in E.
  destruct (compile_all_code (s_compile sv) pre (e_world e) c e0) as [E1|(_ & c' & _ & _ & E1)]; try assumption.
  - intros c' Hc' Ei. apply Hid; try assumption. rewrite E. apply in_or_app. now left.
  - rewrite E1 in Hf. eapply Hc; eauto.
  - rewrite E1 in Hf. inversion Hf; subst. eauto.
Qed.

Lemma additional_conjoined clk1 clk2 shuffle1 shuffle2 f1 f2 e sv a ys1 ys2 e1 e2 r1 r2 :
  valid shuffle1 e a -> shuffles shuffle2 -> unlimited sv a ->
  no_raise (ceval (e_world e1)) (w_model (e_world e)) (all_cons (w_model (e_world e)) a) ->
  groups_ok (w_model (e_world e)) (all_cons (w_model (e_world e)) a) ->
  solve_all clk1 shuffle1 f1 e sv a = Some (ys1, e1, r1) ->
  solve_all clk2 shuffle2 f2 e sv (without a) = Some (ys2, e2, r2) ->
  forall t, (exists s, In s ys1 /\ same_dict s t) <->
            (exists s, In s ys2 /\ same_dict s t) /\
            (forall c, In c (x_additional a) -> concerns (w_model (e_world e)) c -> evaluates_true (e_world e1) t c).
Proof.
  intros Hv1 Hs2 Hu1 Hnr Hg H1 H2 t.
  assert (Hv2 : valid shuffle2 e (without a)).
  { destruct (valid_without _ _ _ Hv1) as (_ & h). exact (conj Hs2 h). }
  assert (Hu2 : unlimited sv (without a)) by exact Hu1.
  set (m := w_model (e_world e)) in *.
  assert (Hcs : all_cons m (without a) = m_cons m) by (unfold all_cons; simpl; apply app_nil_r).
  destruct (unlimited_end _ _ _ _ _ _ _ _ _ Hv1 H1 Hu1 Hnr Hg) as [Hr1 Hi1].
  destruct (run_cases _ _ _ _ _ _ _ _ _ Hv1 H1) as [(-> & _ & _ & Hc)|(Hsol & Hhv & _ & u & order & ys0 & r0 & Es & Eo & Hw & _)].
  - assert (ys2 = []).
    { destruct (run_cases _ _ _ _ _ _ _ _ _ Hv2 H2) as [(E & _)|(A & B & _)]; [exact E|].
      destruct Hc as [(C & _)|[(_ & C & _)|(_ & _ & _ & ex & C & _)]]; congruence. }
    subst ys2. split; [intros (s & [] & _)|intros ((s & [] & _) & _)].
  - assert (Hev : e_world e2 = compile_all (s_compile sv) (e_world e) (m_cons m) ->
                  forall c s, In c (m_cons m) -> ceval (e_world e1) c s = ceval (e_world e2) c s).
    { intros E c s Hc. rewrite Hw, E. destruct Hv1 as (_ & _ & _ & Ho & _). fold m in Ho.
      apply compile_all_agree; auto.
      - apply in_or_app. now left.
      - intros c' Hc' Ei. apply Ho; auto. apply in_or_app. now left.
      - intros c' Hc' Ei. apply Ho; auto; apply in_or_app; now left. }
    fold m in Hsol, Hhv.
    assert (Hg2 : groups_ok m (all_cons m (without a))).
    { rewrite Hcs. intros c xs Hc. apply Hg. apply in_or_app. now left. }
    destruct (run_cases _ _ _ _ _ _ _ _ _ Hv2 H2) as [(E & _ & _ & Hc)|(_ & _ & _ & u2 & order2 & ys02 & r02 & Es2 & Eo2 & Hw2' & _)].
    + exfalso. fold m in Hc. destruct Hc as [(C & _)|[(_ & C & _)|(_ & _ & _ & ex & C & [[_ C2]|[C2 _]])]]; try congruence; try contradiction.
      rewrite Hcs in C2. destruct C2 as (c & s & Hc & Hcc & Hd & Hall & He).
      assert (Hin1 : In c (all_cons m a)) by (apply in_or_app; now left).
      destruct (Hnr c s Hin1 Hcc Hd Hall) as (b & Hb). rewrite Hw in Hb.
      destruct Hv1 as (_ & _ & _ & Ho & _). fold m in Ho.
      rewrite (compile_all_agree _ (e_world e) (e_world e) _ (m_cons m)) in Hb; auto; try congruence.
      * intros c' Hc' Ei. apply Ho; auto; apply in_or_app; now left.
    + fold m in Hw2'. rewrite Hcs in Hw2'. specialize (Hev Hw2').
      assert (Hnr2 : no_raise (ceval (e_world e2)) m (all_cons m (without a))).
      { rewrite Hcs. intros c s Hc Hcc Hd Hall. rewrite <- Hev by assumption.
        apply Hnr; auto. apply in_or_app. now left. }
      destruct (unlimited_end _ _ _ _ _ _ _ _ _ Hv2 H2 Hu2 Hnr2 Hg2) as [Hr2 Hi2].
      pose proof (objects_run _ _ _ _ _ _ _ _ _ Hv1 H1) as Hobj. fold m in Hobj.
      split.
      * intros (s & Hs & Hst). pose proof (sound _ _ _ _ _ _ _ _ _ Hv1 H1 s Hs) as [Ha Hc]. fold m in Ha, Hc. split.
        -- destruct (exhaustive _ _ _ _ _ _ _ _ _ Hv2 H2 Hsol Hhv Hr2 Hi2 s) as (s2 & Hs2' & Hsame).
           ++ split; [exact Ha|]. fold m. rewrite Hcs. intros c Hin Hcc. unfold evaluates_true. rewrite <- Hev by assumption.
              apply Hc; [|assumption]. apply in_or_app. now left.
           ++ exists s2. split; [assumption|]. eapply same_trans; eassumption.
        -- intros c Hin Hcc. unfold evaluates_true. assert (Hin' : In c (all_cons m a)) by (apply in_or_app; now right).
           rewrite <- (same_eval _ _ _ _ t s c Hv1 Hobj Hin' Hcc Hst). now apply Hc.
      * intros ((s & Hs & Hst) & Hadd). pose proof (sound _ _ _ _ _ _ _ _ _ Hv2 H2 s Hs) as [Ha Hc]. fold m in Ha, Hc.
        destruct (exhaustive _ _ _ _ _ _ _ _ _ Hv1 H1 Hsol Hhv Hr1 Hi1 s) as (s1 & Hs1 & Hsame).
        -- split; [exact Ha|]. fold m. intros c Hin Hcc. unfold evaluates_true. unfold all_cons in Hin. apply in_app_or in Hin.
           destruct Hin as [Hin|Hin].
           ++ rewrite Hev by assumption. apply Hc; [|assumption]. rewrite Hcs. exact Hin.
           ++ assert (Hin' : In c (all_cons m a)) by (apply in_or_app; now right).
              rewrite (same_eval _ _ _ _ t s c Hv1 Hobj Hin' Hcc Hst). now apply Hadd.
        -- exists s1. split; [assumption|]. eapply same_trans; eassumption.
Qed.

(** *** Solving again *)

Lemma deterministic clk1 clk2 shuffle f1 f2 ea eb sv a ys1 ys2 e1 e2 r1 r2 :
  valid shuffle ea a -> valid shuffle eb a ->
  w_model (e_world ea) = w_model (e_world eb) -> w_par (e_world ea) = w_par (e_world eb) ->
  (s_compile sv = false -> forall id, w_code (e_world ea) id = w_code (e_world eb) id) ->
  timeout_of sv a = LNone ->
  solve_all clk1 shuffle f1 ea sv a = Some (ys1, e1, r1) ->
  solve_all clk2 shuffle f2 eb sv a = Some (ys2, e2, r2) ->
  ys1 = ys2 /\ r1 = r2 /\ e_interrupt e1 = e_interrupt e2.
Proof.
  intros Hva Hvb Hm Hp Hc Hto H1 H2.
  pose proof (do_setup_agree (s_compile sv) _ _ (x_additional a) Hp Hm Hc) as Hset.
  destruct (run_spec clk1 shuffle f1 ea sv a ys1 e1 r1 (proj1 Hva) (proj1 (proj2 Hva)) (proj2 (proj2 (proj2 Hva))) H1)
    as [Hsol -> -> ->|w ex Hsol Es -> -> ->|w u Hsol Es Eo -> -> ->|w u f' ys0 r0 Hsol Es Eo Esearch Ed Hpre Hf Hw];
  destruct (run_spec clk2 shuffle f2 eb sv a ys2 e2 r2 (proj1 Hvb) (proj1 (proj2 Hvb)) (proj2 (proj2 (proj2 Hvb))) H2)
    as [Hsol' -> -> ->|w' ex' Hsol' Es' -> -> ->|w' u' Hsol' Es' Eo' -> -> ->|w' u' f'' ys0' r0' Hsol' Es' Eo' Esearch' Ed' Hpre' Hf' Hw'];
  try congruence; rewrite ?Es, ?Es' in Hset; simpl in Hset; try discriminate; try (inversion Hset; subst); auto.
  - rewrite Hm in Eo. contradiction.
  - rewrite Hm in Eo. contradiction.
  - rename u' into u. clear Hset. rewrite Hm in Esearch, Ed, Eo, Hf.
    set (order := order_of shuffle sv a (w_model (e_world eb)) u) in *.
    destruct Hva as (hs & hn & hd & ho). destruct Hvb as (hs' & hn' & hd' & ho').
    rewrite Hm in ho.
    assert (Hagree : forall x c s, In c (dget_or (u_cons u) x []) -> ceval (e_world e1) c s = ceval (e_world e2) c s).
    { unfold all_cons in *. rewrite <- Hm in ho.
      destruct (do_setup_spec _ _ _ _ _ ho Es) as (Ew & Hu & _).
      destruct (do_setup_spec _ _ _ _ _ ho' Es') as (Ew' & Hu' & _).
      intros x c s Hin. apply (ui_cons _ _ _ _ Hu) in Hin. destruct Hin as (Hin & _).
      rewrite Ew, Ew'. rewrite Hm in Hin |- *. rewrite Hm in ho. apply compile_all_agree; auto; intros; apply ho'; auto. }
    pose proof (search_agree (e_world e1) (e_world e2) (GInfo (u_doms u) (u_cons u) (u_ad u)) order Hagree 0 [] ys0 r0 Esearch) as Es2.
    rewrite Es2 in Esearch'. inversion Esearch'; subst ys0' r0'.
    assert (Hlim : forall l ys, limit_below passive (run_local l sv a u) 0 ys -> forall n, limit_of sv a = LNum n -> ys = [] \/ len ys < n).
    { intros l ys Hl n En. destruct (Hl n En) as [|[|(k & w & s & ex & E)]]; auto. discriminate. }
    assert (Hinf : forall ys : list subst, limit_of sv a = LInfinity ->
              (limit_of sv a = LInfinity -> ys = [] \/ exists k w s ex, passive k w s = Err ex) -> ys = []).
    { intros ys E HH. destruct (HH E) as [|(k & w & s & ex & E')]; auto. discriminate. }
    assert (Hfull : forall l (ys : list subst) n, prefix l ys -> len ys < n -> len l = n -> False).
    { intros l ys n (q & ->) A B. unfold len in *. rewrite app_length in A. lia. }
    assert (Hone : forall (l ys : list subst), prefix l ys -> len l = 1 -> ys <> []).
    { intros l ys (q & ->) A. destruct l; [discriminate|discriminate]. }
    assert (Hsame : forall l l' (ys : list subst), prefix l ys -> prefix l' ys -> len l = len l' -> l = l').
    { intros l l' ys A B C. rewrite (prefix_firstn _ _ A), (prefix_firstn _ _ B). unfold len in C. f_equal. lia. }
    destruct Hf as [Ey Er _ Ei Hlb _ Hli|n E E1 E2 E3 E4 E5|t E|E|E E1 E2 E3];
    destruct Hf' as [Ey' Er' _ Ei' Hlb' _ Hli'|n' E' E1' E2' E3' E4' E5'|t' E'|E'|E' E1' E2' E3'];
    try (cbn in E; unfold timeout_of in Hto; congruence); try (cbn in E'; unfold timeout_of in Hto; congruence).
    + rewrite Ei, Ei'. subst. auto.
    + exfalso. subst ys1. destruct (Hlim _ _ Hlb n' E') as [->|Hlt].
      * destruct Hpre' as (q & Eq). destruct ys2; [contradiction|discriminate].
      * destruct E5' as [A|A]; [apply (Hfull ys2 ys0 n' Hpre' Hlt); lia|].
        destruct Hpre' as (q & ->). unfold len in *. rewrite app_length in Hlt. lia.
    + exfalso. subst ys1. pose proof (Hinf _ E' Hli). subst ys0. destruct Hpre' as (q & Eq). destruct ys2; discriminate.
    + exfalso. subst ys2. destruct (Hlim _ _ Hlb' n E) as [->|Hlt].
      * destruct Hpre as (q & Eq). destruct ys1; [contradiction|discriminate].
      * destruct Hpre as (q & ->). unfold len in *. rewrite app_length in Hlt. lia.
    + cbn in E, E'. rewrite E in E'. inversion E'; subst n'.
      assert (ys1 <> [] /\ ys2 <> []) by auto.
      assert (len ys1 = len ys2). 
      { assert (Hp1 : forall l : list subst, l <> [] -> 1 <= len l).
        { intros [|y l] Hy; [contradiction|]. unfold len. simpl length. lia. }
        pose proof (Hp1 _ E3). pose proof (Hp1 _ E3'). destruct E5 as [A|A]; destruct E5' as [A'|A']; lia. }
      rewrite E1, E1', E2, E2'. repeat split. eapply Hsame; eassumption.
    + cbn in E, E'. congruence.
    + exfalso. subst ys2. pose proof (Hinf _ E Hli'). subst ys0. destruct Hpre as (q & Eq). destruct ys1; discriminate.
    + cbn in E, E'. congruence.
    + rewrite E2, E2', E3, E3'. repeat split. eapply Hsame; [eassumption..|]. lia.
Qed.

Lemma solve_again clk1 clk2 shuffle f1 f2 e sv a ys1 ys2 e1 e2 r1 r2 eb :
  valid shuffle e a -> timeout_of sv a = LNone ->
  solve_all clk1 shuffle f1 e sv a = Some (ys1, e1, r1) ->
  e_world eb = e_world e1 ->
  solve_all clk2 shuffle f2 eb sv a = Some (ys2, e2, r2) ->
  w_model (e_world e1) = w_model (e_world e) /\ w_par (e_world e1) = w_par (e_world e) /\
  ys1 = ys2 /\ r1 = r2.
Proof.
  intros Hv Hto H1 Hb H2. destruct (run_model _ _ _ _ _ _ _ _ _ Hv H1) as [Hm Hp].
  split; [exact Hm|]. split; [exact Hp|].
  assert (Hvb : valid shuffle eb a).
  { pose proof (objects_run _ _ _ _ _ _ _ _ _ Hv H1) as Hobj.
    destruct Hv as (h1 & h2 & h3 & h4). split; [exact h1|]. rewrite Hb, Hm. auto. }
  destruct (deterministic clk1 clk2 shuffle f1 f2 e eb sv a ys1 ys2 e1 e2 r1 r2) as (A & B & _); auto.
  - now rewrite Hb.
  - now rewrite Hb.
  - intros Ec id. rewrite Hb. rewrite (run_world _ _ _ _ _ _ _ _ _ Hv H1). destruct (m_solvable _); [|reflexivity].
    destruct (do_setup_world (s_compile sv) (e_world e) (x_additional a)) as (pre & post & _ & ->).
    now rewrite Ec, compile_all_false.
Qed.

(** ** Mathematical truth *)

Lemma holds_iff w cmp cs m c s :
  (forall c c', In c cs -> In c' cs -> c_id c = c_id c' -> c_body c = c_body c') ->
  faithful w cmp cs -> no_error (w_par w) m cs -> In c cs -> concerns m c ->
  (forall x v, In (x, v) s -> exists d, is_variable m x d /\ In v d) ->
  (forall x, mentions c x -> In x (map fst s)) ->
  exists b, ceval (compile_all cmp w cs) c s = Ok b /\ (b = true <-> holds (w_par w) s c).
Proof.
  intros Hid Hf Hne Hin Hcc Hd Hall. unfold ceval, holds. destruct (c_body c) as [b|e|xs] eqn:Eb.
  - destruct Hcc as [(x & Hx) _]. unfold mentions in Hx. rewrite Eb in Hx. contradiction.
  - destruct (Hne c e s Hin Eb Hcc Hd Hall) as (v & Hv). exists (truthy v). split.
    + specialize (Hf c e Hin Eb). destruct cmp.
      * rewrite (compile_all_in w cs c e Hin Eb) by (intros c' Hc' Ei; now apply Hid).
        now rewrite (compiled_agrees _ _ _ _ Hf Hv).
      * rewrite compile_all_false, Hf, Hv. reflexivity.
    + rewrite Hv. unfold truthy. split.
      * intros E. exists v. split; [reflexivity|]. intros ->. discriminate.
      * intros (v' & E & Hnz). inversion E; subst. destruct (Z.eqb_spec v' 0); [contradiction|reflexivity].
  - destruct (ad_evaluate_spec s (dedup xs)) as (b & Hb & Hiff).
    + pose proof (c_vars_NoDup c) as Hnd. unfold c_vars in Hnd. now rewrite Eb in Hnd.
    + intros x Hx. apply dget_Some. apply Hall. apply mentions_vars. unfold c_vars. now rewrite Eb.
    + exists b. split; [exact Hb|]. rewrite Hiff.
      assert (Hded : forall x, In x (dedup xs) <-> In x xs).
      { intros x. pose proof (mentions_vars c x) as Hmv. unfold mentions, c_vars in Hmv. rewrite Eb in Hmv. tauto. }
      split.
      * intros HH x y Hx Hy Hxy.
        destruct (proj1 (dget_Some s x)) as (va & Ea). { apply Hall. unfold mentions. now rewrite Eb. }
        destruct (proj1 (dget_Some s y)) as (vb & Ebb). { apply Hall. unfold mentions. now rewrite Eb. }
        exists va, vb. repeat split; try assumption. intros ->. apply (HH x y); try (now apply Hded); [assumption|]. now rewrite Ea, Ebb.
      * intros HH x y Hx Hy Hxy E. destruct (HH x y) as (va & vb & Ea & Ebb & Hne'); try (now apply Hded); [assumption|].
        rewrite Ea, Ebb in E. inversion E. contradiction.
Qed.

Lemma assigns_dom m s : assigns m s ->
  (forall x v, In (x, v) s -> exists d, is_variable m x d /\ In v d) /\
  (forall c, concerns m c -> forall x, mentions c x -> In x (map fst s)).
Proof.
  intros (H1 & H2 & H3). split.
  - intros x v Hin. destruct (proj1 (H2 x)) as (d & Hd). { change x with (fst (x, v)). now apply in_map. }
    exists d. split; [exact Hd|]. eapply H3; eauto.
  - intros c [_ Hc] x Hx. apply H2. now apply Hc.
Qed.

Lemma solves_holds w cmp cs m s :
  (forall c c', In c cs -> In c' cs -> c_id c = c_id c' -> c_body c = c_body c') ->
  faithful w cmp cs -> no_error (w_par w) m cs ->
  (solves (evaluates_true (compile_all cmp w cs)) m cs s <-> solves (holds (w_par w)) m cs s).
Proof.
  intros Hid Hf Hne. split; intros [Ha Hc]; (split; [exact Ha|]); intros c Hin Hcc; destruct (assigns_dom m s Ha) as [H1 H2];
    destruct (holds_iff w cmp cs m c s Hid Hf Hne Hin Hcc H1 (H2 c Hcc)) as (b & Hb & Hiff); specialize (Hc c Hin Hcc);
    unfold evaluates_true in *.
  - apply Hiff. congruence.
  - rewrite Hb. f_equal. now apply Hiff.
Qed.

Lemma solutions_hold clk shuffle f e sv a ys e' r :
  let m := w_model (e_world e) in let cs := all_cons m a in
  valid shuffle e a -> faithful (e_world e) (s_compile sv) cs -> no_error (w_par (e_world e)) m cs ->
  solve_all clk shuffle f e sv a = Some (ys, e', r) ->
  (forall s, In s ys -> solves (holds (w_par (e_world e))) m cs s) /\
  (unlimited sv a -> m_solvable m = true -> has_variable m -> groups_ok m cs ->
   r = None /\ e_interrupt e' = None /\
   forall t, solves (holds (w_par (e_world e))) m cs t -> exists s, In s ys /\ same_dict s t).
Proof.
  intros m cs Hv Hf Hne H. pose proof (proj1 (proj2 (proj2 (proj2 Hv)))) as Hid. fold m cs in Hid.
  assert (Hnerr : forall ex, ~ eval_error (compile_all (s_compile sv) (e_world e) cs) m cs ex).
  { intros ex (c & s & Hc & Hcc & Hd & Hall & He).
    destruct (holds_iff _ _ _ _ c s Hid Hf Hne Hc Hcc Hd Hall) as (b & Hb & _). congruence. }
  destruct (run_cases _ _ _ _ _ _ _ _ _ Hv H) as [(-> & _ & _ & Hc)|(Hsol & Hhv & _ & u & order & ys0 & r0 & Es & Eo & Hw & _)].
  - split; [intros s []|]. intros Hu Hsol Hhv Hg. exfalso. fold m cs in Hc.
    destruct Hc as [(C & _)|[(_ & C & _)|(_ & _ & _ & ex & _ & [[_ C]|[C _]])]]; try congruence; try contradiction.
    now apply (Hnerr ex).
  - fold m cs in Hw. split.
    + intros s Hs. apply (solves_holds (e_world e) (s_compile sv) cs m s Hid Hf Hne). rewrite <- Hw.
      exact (sound _ _ _ _ _ _ _ _ _ Hv H s Hs).
    + intros Hu _ _ Hg.
      assert (Hnr : no_raise (ceval (e_world e')) m cs).
      { rewrite Hw. intros c s Hc Hcc Hd Hall. destruct (holds_iff _ _ _ _ c s Hid Hf Hne Hc Hcc Hd Hall) as (b & Hb & _). eauto. }
      destruct (complete _ _ _ _ _ _ _ _ _ Hv H Hu Hsol Hhv Hnr Hg) as (A & B & C).
      split; [exact A|]. split; [exact B|]. intros t Ht. apply C. fold m cs. rewrite Hw.
      now apply (solves_holds (e_world e) (s_compile sv) cs m t Hid Hf Hne).
Qed.
