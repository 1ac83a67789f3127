(** What [_setup] computes. *)
From Coq Require Import Permutation.
From Verif Require Import Solver SpecFormula SpecSolve ExprFacts DictFacts ModelFacts CodeFacts SearchFacts LoopFacts EnumFacts.
Open Scope list_scope.
Open Scope Z_scope.

(** ** Compilation *)

Definition compile1 (cmp : bool) (w : world) (c : constraint) : world := if cmp then ccompile w c else w.
Definition compile_all (cmp : bool) (w : world) (cs : list constraint) : world :=
  fold_left (compile1 cmp) cs w.

Lemma compile1_model cmp w c : w_model (compile1 cmp w c) = w_model w.
Proof. unfold compile1. destruct cmp; [apply ccompile_model|reflexivity]. Qed.
Lemma compile1_par cmp w c : w_par (compile1 cmp w c) = w_par w.
Proof. unfold compile1, ccompile. destruct cmp; [destruct (c_body c)|]; reflexivity. Qed.
Lemma compile_all_model cmp cs : forall w, w_model (compile_all cmp w cs) = w_model w.
Proof. induction cs as [|c cs IH]; intros w; [reflexivity|]. unfold compile_all in *. simpl. rewrite IH. apply compile1_model. Qed.
Lemma compile_all_par cmp cs : forall w, w_par (compile_all cmp w cs) = w_par w.
Proof. induction cs as [|c cs IH]; intros w; [reflexivity|]. unfold compile_all in *. simpl. rewrite IH. apply compile1_par. Qed.
Lemma compile_all_app cmp cs cs' w : compile_all cmp w (cs ++ cs') = compile_all cmp (compile_all cmp w cs) cs'.
Proof. unfold compile_all. apply fold_left_app. Qed.

(** Code of a constraint after compilation. *)
Lemma compile_all_code cmp cs : forall w c e,
  (forall c', In c' cs -> c_id c' = c_id c -> c_body c' = c_body c) -> c_body c = CExpr e ->
  w_code (compile_all cmp w cs) (c_id c) = w_code w (c_id c) \/
  (cmp = true /\ exists c', In c' cs /\ c_id c' = c_id c /\
   w_code (compile_all cmp w cs) (c_id c) = Some (as_function (w_par w) e)).
Proof.
  induction cs as [|c1 cs IH]; intros w c e Hid Hb; [left; reflexivity|].
  unfold compile_all in *. cbn [fold_left].
  destruct (IH (compile1 cmp w c1) c e (fun c' H => Hid c' (or_intror H)) Hb) as [E|(Hc & c' & Hin & Hi & E)].
  - rewrite E. destruct cmp; [|left; reflexivity]. unfold compile1, ccompile.
    destruct (Nat.eq_dec (c_id c1) (c_id c)) as [Heq|Hne].
    + rewrite (Hid c1 (or_introl eq_refl) Heq), Hb. simpl. right. split; [reflexivity|]. exists c1.
      split; [now left|]. split; [assumption|]. rewrite Heq. apply upd_same.
    + left. destruct (c_body c1); try reflexivity. simpl. apply upd_other. congruence.
  - right. split; [assumption|]. exists c'. split; [now right|]. split; [assumption|].
    rewrite E. now rewrite compile1_par.
Qed.

Lemma ceval_code w w' c s :
  w_par w = w_par w' -> (forall e, c_body c = CExpr e -> w_code w (c_id c) = w_code w' (c_id c)) ->
  ceval w c s = ceval w' c s.
Proof.
  intros Hp H. unfold ceval. destruct (c_body c) as [b|e|xs]; try reflexivity.
  rewrite (H e eq_refl), Hp. reflexivity.
Qed.

(** The code of [c] right after compiling it is its code at the end. *)
Lemma ceval_stable cmp w pre c post s :
  (forall c', In c' post -> c_id c' = c_id c -> c_body c' = c_body c) ->
  ceval (compile_all cmp w (pre ++ [c])) c s = ceval (compile_all cmp w (pre ++ c :: post)) c s.
Proof.
  intros Hid. replace (pre ++ c :: post) with ((pre ++ [c]) ++ post) by (rewrite <- app_assoc; reflexivity).
  rewrite (compile_all_app cmp (pre ++ [c]) post). set (w1 := compile_all cmp w (pre ++ [c])).
  apply ceval_code; [symmetry; apply compile_all_par|]. intros e Hb.
  destruct (compile_all_code cmp post w1 c e Hid Hb) as [E|(-> & c' & _ & _ & E)]; [now rewrite E|].
  rewrite E. unfold w1 at 1. rewrite compile_all_app. unfold compile_all at 1. cbn [fold_left compile1].
  unfold ccompile. rewrite Hb. simpl. rewrite upd_same. f_equal. f_equal.
  unfold w1. now rewrite !compile_all_par.
Qed.

Lemma objects_compile cmp w cs : objects w cs -> objects (compile_all cmp w cs) cs.
Proof.
  intros [Hid Hc]. split; [assumption|]. intros c e f Hin Hb Hf.
  destruct (compile_all_code cmp cs w c e (fun c' H E => Hid c' c H Hin E) Hb) as [E|(_ & _ & _ & _ & E)].
  - rewrite E in Hf. eauto.
  - rewrite E in Hf. inversion Hf. eauto.
Qed.

(** ** pure_variables *)

Lemma pure_In vs x d : In (x, d) (pure_variables vs) <-> In (x, VVar d) vs.
Proof.
  induction vs as [|[y [d'|p]] vs IH]; simpl; [tauto| |].
  - rewrite IH. split; intros [E|H]; auto; left; inversion E; reflexivity.
  - rewrite IH. split; [auto|]. intros [E|H]; [discriminate|assumption].
Qed.

Lemma pure_keys_In vs x : In x (dkeys (pure_variables vs)) <-> exists d, In (x, VVar d) vs.
Proof.
  unfold dkeys. rewrite in_map_iff. split.
  - intros ([y d] & <- & H). exists d. now apply pure_In.
  - intros (d & H). exists (x, d). split; [reflexivity|now apply pure_In].
Qed.

Lemma pure_NoDup vs : NoDup (dkeys vs) -> NoDup (dkeys (pure_variables vs)).
Proof.
  induction vs as [|[y [d'|p]] vs IH]; simpl; intros H; [constructor| |]; inversion H as [|? ? Hy Hnd]; subst; [|auto].
  constructor; [|auto]. fold (dkeys (pure_variables vs)). rewrite pure_keys_In. intros (d & Hin). apply Hy.
  change y with (fst (y, VVar d)). now apply in_map.
Qed.

Lemma pure_dget m x d : well_named m -> dget (pure_variables (m_vars m)) x = Some d <-> is_variable m x d.
Proof.
  intros [Hnd _]. unfold is_variable. rewrite <- pure_In. apply dget_NoDup. now apply pure_NoDup.
Qed.

(** ** The loop over the constraints *)

Definition is_ad (c : constraint) : bool := match c_body c with CAllDiff _ => true | _ => false end.

Section Setup.
Variable w1 : world.                    (* the world at the end *)
Variable pure : dict (list Z).

Definition single_ok (cs : list constraint) (x : name) (v : Z) : Prop :=
  forall c, In c cs -> is_ad c = false -> c_vars c = [x] -> ceval w1 c [(x, v)] = Ok true.

Record uinv (cs : list constraint) (u : setup) : Prop := UInv {
  ui_keys : dkeys (u_doms u) = dkeys pure;
  ui_doms : forall x d, dget pure x = Some d ->
    exists f, dget (u_doms u) x = Some (filter f d) /\ forall v, In v d -> (f v = true <-> single_ok cs x v);
  ui_cons : forall x c, In c (dget_or (u_cons u) x []) <->
    In c cs /\ is_ad c = false /\ length (c_vars c) <> 1%nat /\ In x (c_vars c);
  ui_ad : forall x y, In y (dget_or (u_ad u) x []) <->
    exists c, In c cs /\ is_ad c = true /\ In x (c_vars c) /\ In y (c_vars c) /\ x <> y;
  ui_bounds : dkeys (u_bounds u) = dkeys pure;
  ui_groups : forall g, In g (u_groups u) <-> exists c, In c cs /\ is_ad c = true /\ g = c_vars c
}.

Lemma uinv_init : uinv [] (Setup pure [] [] (map (fun p => (fst p, 0)) pure) [] []).
Proof.
  constructor; simpl.
  - reflexivity.
  - intros x d H. exists (fun _ => true). split.
    + rewrite H. clear H. f_equal. induction d as [|a d IH]; simpl; [reflexivity|now rewrite <- IH].
    + intros v _. split; [|reflexivity]. intros _ c [].
  - intros x c. split; [contradiction|tauto].
  - intros x y. split; [contradiction|]. intros (c & [] & _).
  - unfold dkeys. rewrite map_map. reflexivity.
  - intros g. split; [contradiction|]. intros (c & [] & _).
Qed.

Lemma fold_dappend {A} (a : A) vs : forall (d : dict (list A)) x b,
  In b (dget_or (fold_left (fun d x => dappend d x a) vs d) x []) <->
  In b (dget_or d x []) \/ (b = a /\ In x vs).
Proof.
  induction vs as [|y vs IH]; intros d x b; [simpl; tauto|]. cbn [fold_left]. rewrite IH.
  unfold dappend, dget_or at 1. rewrite dget_dset. destruct (String.eqb_spec x y) as [E|E].
  - subst y. rewrite in_app_iff. simpl. split; [intros [[H|[H|[]]]|H]; auto; tauto|].
    intros [H|[-> [_|H]]]; auto.
  - fold (dget_or d x []). simpl. split; [intros [H|[H1 H2]]; auto|].
    intros [H|[H1 [H2|H2]]]; auto. congruence.
Qed.

Lemma fold_dunion cv vs : forall (d : dict (list name)) x y,
  In y (dget_or (fold_left (fun d x => dunion d x (filter (fun y => negb (String.eqb y x)) cv)) vs d) x []) <->
  In y (dget_or d x []) \/ (In x vs /\ In y cv /\ x <> y).
Proof.
  induction vs as [|z vs IH]; intros d x y; [simpl; tauto|]. cbn [fold_left]. rewrite IH.
  unfold dunion, dget_or at 1. rewrite dget_dset. destruct (String.eqb_spec x z) as [E|E].
  - subst z. rewrite in_app_iff, filter_In. rewrite negb_true_iff, String.eqb_neq. simpl.
    split; [intros [[H|[H1 H2]]|H]; auto; try tauto; right; split; auto|].
    intros [H|[_ [H1 H2]]]; auto.
  - fold (dget_or d x []). simpl. split; [tauto|]. intros [H|[[H1|H1] H2]]; auto. congruence.
Qed.

Lemma fold_bounds (doms : dict (list Z)) k vs : forall b : dict Z,
  dkeys b = dkeys doms ->
  dkeys (fold_left (fun b x => if dmem doms x then dset b x (dget_or b x 0 + k) else b) vs b) = dkeys doms.
Proof.
  induction vs as [|x vs IH]; intros b H; [assumption|]. cbn [fold_left]. apply IH.
  destruct (dmem doms x) eqn:E; [|assumption]. rewrite dkeys_dset.
  rewrite (proj2 (dmem_In b x)); [assumption|]. rewrite H. now apply dmem_In.
Qed.

Lemma setup_step_spec cmp w u c cs w' u' :
  uinv cs u -> (forall s, ceval (compile1 cmp w c) c s = ceval w1 c s) ->
  setup_step cmp w u c = (w', Ok u') -> w' = compile1 cmp w c /\ uinv (cs ++ [c]) u'.
Proof.
  intros [Hk Hd Hc Ha Hb Hg] Hst H. unfold setup_step in H.
  set (b' := fold_left _ (c_vars c) (u_bounds u)) in H.
  assert (Hb' : dkeys b' = dkeys pure).
  { unfold b'. rewrite <- Hk. apply fold_bounds. congruence. }
  assert (Hin : forall c', In c' (cs ++ [c]) <-> In c' cs \/ c' = c).
  { intros c'. rewrite in_app_iff. simpl. intuition congruence. }
  destruct (c_body c) as [bb|e|xs] eqn:Ebody.
  3:{ (* all different *)
    assert (Had : is_ad c = true) by (unfold is_ad; now rewrite Ebody).
    inversion H; subst. split; [reflexivity|]. constructor; simpl.
    - assumption.
    - intros x d Hx. destruct (Hd x d Hx) as (f & Hf & Hv). exists f. split; [assumption|].
      intros v Hvd. rewrite (Hv v Hvd). split; intros Hs c' Hc'; [apply Hin in Hc'; destruct Hc' as [Hc'| ->]; [auto|congruence]|].
      apply Hs. apply Hin. now left.
    - intros x c'. rewrite Hc. rewrite Hin. split; [tauto|]. intros [[H1| ->] H2]; [tauto|destruct H2; congruence].
    - intros x y. destruct (Nat.ltb_spec 1 (length (c_vars c))) as [Hl|Hl].
      + rewrite fold_dunion, Ha. split.
        * intros [(c' & H1 & H2)|[H1 [H2 H3]]]; [exists c'; rewrite Hin; tauto|]. exists c. rewrite Hin. tauto.
        * intros (c' & H1 & H2). rewrite Hin in H1. destruct H1 as [H1| ->]; [left; exists c'; tauto|right; tauto].
      + rewrite Ha. split.
        * intros (c' & H1 & H2). exists c'. rewrite Hin. tauto.
        * intros (c' & H1 & H2 & H3 & H4 & H5). rewrite Hin in H1. destruct H1 as [H1| ->]; [exists c'; tauto|].
          exfalso. destruct (c_vars c) as [|z [|z' l]]; simpl in *; [contradiction| |lia].
          destruct H3 as [<-|[]]. destruct H4 as [<-|[]]. congruence.
    - assumption.
    - intros g. rewrite in_app_iff, Hg. simpl. split.
      + intros [(c' & H1 & H2)|[<-|[]]]; [exists c'; rewrite Hin; tauto|exists c; rewrite Hin; tauto].
      + intros (c' & H1 & H2 & H3). rewrite Hin in H1. destruct H1 as [H1| ->]; [left; exists c'; tauto|right; left; congruence]. }
  all: assert (Had : is_ad c = false) by (unfold is_ad; now rewrite Ebody).
  all: assert (Hmulti : length (c_vars c) <> 1%nat ->
    uinv (cs ++ [c]) (Setup (u_doms u) (fold_left (fun d x => dappend d x c) (c_vars c) (u_cons u)) (u_ad u)
                        b' (u_groups u) (u_vgroups u))).
  all: try (intros Hl; constructor; simpl;
    [ assumption
    | intros x d Hx; destruct (Hd x d Hx) as (f & Hf & Hv); exists f; split; [assumption|];
      intros v Hvd; rewrite (Hv v Hvd); split; intros Hs c' Hc';
        [ apply Hin in Hc'; destruct Hc' as [Hc'| ->];
            [auto|intros _ E; exfalso; apply Hl; rewrite E; reflexivity]
        | apply Hs; apply Hin; now left]
    | intros x c'; rewrite fold_dappend, Hc, Hin; split;
        [intros [H1|[-> H1]]; tauto|intros [[H1| ->] H2]; tauto]
    | intros x y; rewrite Ha; split; intros (c' & H1 & H2);
        [exists c'; rewrite Hin; tauto|rewrite Hin in H1; destruct H1 as [H1| ->]; [exists c'; tauto|destruct H2; congruence]]
    | assumption
    | intros g; rewrite Hg; split; intros (c' & H1 & H2);
        [exists c'; rewrite Hin; tauto|rewrite Hin in H1; destruct H1 as [H1| ->]; [exists c'; tauto|destruct H2; congruence]] ]).
  all: assert (Hsingle : forall doms' x, c_vars c = [x] -> dkeys doms' = dkeys pure ->
    (forall y d, dget pure y = Some d -> exists f, dget doms' y = Some (filter f d) /\
        forall v, In v d -> (f v = true <-> single_ok cs y v /\ (y = x -> ceval w1 c [(x, v)] = Ok true))) ->
    uinv (cs ++ [c]) (Setup doms' (u_cons u) (u_ad u) b' (u_groups u) (u_vgroups u))).
  all: try (intros doms' x Hcv Hk' Hd'; constructor; simpl;
    [ assumption
    | intros y d Hy; destruct (Hd' y d Hy) as (f & Hf & Hv); exists f; split; [assumption|];
      intros v Hvd; rewrite (Hv v Hvd); split;
        [ intros [Hs Hy'] c' Hc'; apply Hin in Hc'; destruct Hc' as [Hc'| ->];
            [auto|intros _ E; rewrite Hcv in E; inversion E; subst; auto]
        | intros Hs; split; [intros c' Hc'; apply Hs; apply Hin; now left|];
            intros ->; apply Hs; [apply Hin; now right|assumption|assumption] ]
    | intros y c'; rewrite Hc, Hin; split; [tauto|];
        intros [[H1| ->] H2]; [tauto|]; destruct H2 as [_ [H2 _]]; exfalso; apply H2; rewrite Hcv; reflexivity
    | intros y z; rewrite Ha; split; intros (c' & H1 & H2);
        [exists c'; rewrite Hin; tauto|rewrite Hin in H1; destruct H1 as [H1| ->]; [exists c'; tauto|destruct H2; congruence]]
    | assumption
    | intros g; rewrite Hg; split; intros (c' & H1 & H2);
        [exists c'; rewrite Hin; tauto|rewrite Hin in H1; destruct H1 as [H1| ->]; [exists c'; tauto|destruct H2; congruence]] ]).
  all: destruct (c_vars c) as [|x [|x2 l]] eqn:Ecv.
  all: try (inversion H; subst; split; [reflexivity|]; apply Hmulti; simpl; lia).
  all: destruct (dget (u_doms u) x) as [d0|] eqn:Edom.
  all: try (inversion H; subst; split; [reflexivity|]; apply (Hsingle (u_doms u) x eq_refl Hk);
      intros y d Hy; destruct (Hd y d Hy) as (f & Hf & Hv); exists f; split; [assumption|];
      intros v Hvd; rewrite (Hv v Hvd); split; [intros Hs; split; [assumption|intros ->; congruence]|tauto]).
  all: match type of H with context [filterM ?F ?D] => destruct (filterM F D) as [d1|] eqn:Ef end; [|discriminate].
  all: inversion H; subst; split; [reflexivity|].
  all: apply (Hsingle (dset (u_doms u) x d1) x eq_refl).
  all: try (rewrite dkeys_dset; rewrite (proj2 (dmem_In (u_doms u) x)); [assumption|]; apply dget_Some; eauto).
  all: intros y d Hy; destruct (Hd y d Hy) as (f & Hf & Hv); rewrite dget_dset;
    destruct (String.eqb_spec y x) as [E|E];
    [ subst y | exists f; split; [assumption|]; intros v Hvd; rewrite (Hv v Hvd); split; [intros Hs; split; [assumption|congruence]|tauto] ].
  all: rewrite Edom in Hf; inversion Hf; subst d0; apply filterM_Ok in Ef; subst d1;
    fold (compile1 cmp w c) in *;
    exists (fun v => f v && match ceval (compile1 cmp w c) c [(x, v)] with Ok b => b | Err _ => false end); split.
  all: try (f_equal; clear; induction d as [|a d IH]; [reflexivity|]; simpl; destruct (f a); simpl; rewrite IH; reflexivity).
  all: intros v Hvd; rewrite andb_true_iff, (Hv v Hvd), (Hst [(x, v)]); split;
    [ intros [Hs Hb1]; split; [assumption|]; intros _; destruct (ceval w1 c [(x, v)]) as [[|]|]; congruence
    | intros [Hs Hb1]; split; [assumption|]; now rewrite (Hb1 eq_refl) ].
Qed.

Lemma setup_step_world cmp w u c : fst (setup_step cmp w u c) = compile1 cmp w c.
Proof.
  unfold setup_step, compile1. destruct (c_body c); try reflexivity;
    destruct (c_vars c) as [|x [|y l]]; try reflexivity;
    destruct (dget (u_doms u) x); try reflexivity; destruct (filterM _ _); reflexivity.
Qed.

Lemma setup_loop_spec cmp cs : forall pre w0 u w' u',
  uinv pre u ->
  w1 = compile_all cmp w0 (pre ++ cs) ->
  (forall c c', In c (pre ++ cs) -> In c' (pre ++ cs) -> c_id c = c_id c' -> c_body c = c_body c') ->
  setup_loop cmp (compile_all cmp w0 pre) u cs = (w', Ok u') ->
  w' = w1 /\ uinv (pre ++ cs) u'.
Proof.
  induction cs as [|c cs IH]; intros pre w0 u w' u' Hu Hw Hid H.
  - simpl in H. rewrite app_nil_r in *. inversion H; subst. auto.
  - cbn [setup_loop] in H.
    destruct (setup_step cmp (compile_all cmp w0 pre) u c) as [w2 [u2|ex]] eqn:Es; [|discriminate].
    assert (Hc1 : compile1 cmp (compile_all cmp w0 pre) c = compile_all cmp w0 (pre ++ [c])).
    { rewrite compile_all_app. reflexivity. }
    apply (setup_step_spec _ _ _ _ pre) in Es; [|assumption|].
    + destruct Es as [-> Hu2]. rewrite Hc1 in H.
      replace (pre ++ c :: cs) with ((pre ++ [c]) ++ cs) in * by (rewrite <- app_assoc; reflexivity).
      eapply IH; [exact Hu2|exact Hw|exact Hid|exact H].
    + intros s. rewrite Hc1, Hw. apply ceval_stable. intros c' Hc' E. apply Hid; [| |assumption];
        apply in_or_app; right; [now right|now left].
Qed.

End Setup.

Lemma setup_loop_world cmp cs : forall w u, exists pre post,
  cs = pre ++ post /\ fst (setup_loop cmp w u cs) = compile_all cmp w pre.
Proof.
  induction cs as [|c cs IH]; intros w u; [exists [], []; split; reflexivity|]. cbn [setup_loop].
  pose proof (setup_step_world cmp w u c) as Hw.
  destruct (setup_step cmp w u c) as [w2 [u2|ex]]; simpl in Hw; subst w2.
  - destruct (IH (compile1 cmp w c) u2) as (pre & post & -> & E). exists (c :: pre), post. split; [reflexivity|exact E].
  - exists [c], cs. split; reflexivity.
Qed.

Lemma do_setup_world cmp w add : exists pre post,
  m_cons (w_model w) ++ add = pre ++ post /\ fst (do_setup cmp w add) = compile_all cmp w pre.
Proof.
  unfold do_setup.
  set (u0 := Setup _ _ _ _ _ _).
  destruct (setup_loop_world cmp (m_cons (w_model w) ++ add) w u0) as (pre & post & E & H).
  exists pre, post. split; [assumption|].
  destruct (setup_loop cmp w u0 _) as [w' [u|ex]]; simpl in H; [|assumption].
  destruct (check_groups (u_bounds u) (u_groups u)); assumption.
Qed.

(** All groups are non-empty and made of variables. *)
Lemma check_groups_spec b gs :
  check_groups b gs = Ok tt <-> forall g, In g gs -> g <> [] /\ forall x, In x g -> In x (dkeys b).
Proof.
  induction gs as [|g gs IH]; simpl; [split; [intros _ g []|reflexivity]|].
  destruct (forallb (fun x => dmem b x) g) eqn:Ef.
  - rewrite forallb_forall in Ef. destruct g as [|x g].
    + split; [discriminate|]. intros H. destruct (H [] (or_introl eq_refl)) as [H1 _]. congruence.
    + rewrite IH. split.
      * intros H g' [<-|Hg]; [|auto]. split; [discriminate|]. intros y Hy. apply dmem_In. auto.
      * intros H g' Hg. auto.
  - split; [discriminate|]. intros H. destruct (H g (or_introl eq_refl)) as [_ H1].
    assert (Ht : forallb (fun x => dmem b x) g = true); [|congruence].
    apply forallb_forall. intros x Hx. apply dmem_In. auto.
Qed.

Lemma do_setup_spec cmp w add w' u :
  objects w (m_cons (w_model w) ++ add) ->
  do_setup cmp w add = (w', Ok u) ->
  let cs := m_cons (w_model w) ++ add in
  let pure := pure_variables (m_vars (w_model w)) in
  w' = compile_all cmp w cs /\ uinv w' pure cs u /\
  (forall c, In c cs -> is_ad c = true -> c_vars c <> [] /\ forall x, In x (c_vars c) -> In x (dkeys pure)).
Proof.
  intros [Hid _] H cs pure. unfold do_setup in H. fold pure cs in H. fold cs in Hid.
  destruct (setup_loop cmp w _ cs) as [w2 [u2|]] eqn:El; [|discriminate].
  destruct (check_groups (u_bounds u2) (u_groups u2)) as [[]|] eqn:Eg; [|discriminate].
  inversion H; subst w2 u2. clear H.
  destruct (setup_loop_spec (compile_all cmp w cs) pure cmp cs [] w _ _ _ (uinv_init _ _) eq_refl Hid El) as [-> Hu].
  split; [reflexivity|]. split; [exact Hu|].
  intros c Hc Had. rewrite check_groups_spec in Eg.
  destruct Hu as [_ _ _ _ Hb Hg]. rewrite Hb in Eg. apply Eg. apply Hg. eauto.
Qed.
