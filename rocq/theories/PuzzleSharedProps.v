(** The theorems about puzzles on one Model. *)
From Verif Require Import PuzzleShared SpecPuzzleShared SpecPuzzle SpecSafe SpecSolve SpecQueens SpecPuzzleUser
  ExprFacts ExprProps DictFacts PuzzleFacts PuzzleRel PuzzleUserFacts PuzzleUserRel PuzzleFrame PuzzleSharedFacts.
Open Scope list_scope.
Open Scope Z_scope.

Lemma steps_nth l : Forall realised l -> forall k z g o, nth_error (puzzles (map spiece l)) k = Some (z, g, o) ->
  exists obj, nth_error (flat_map sobjs l) k = Some (obj, base_solver g (completed z o)).
Proof.
  induction 1 as [|x l Hx Hl IH]; intros k z g o Hk; [destruct k; discriminate|]. cbn [map puzzles flat_map] in *.
  destruct x as [[[u|z' g' o'] [u'|t]] d]; cbn [realised] in Hx; try contradiction; unfold sobjs, spiece in *; cbn [fst snd] in *; fold sobjs spiece in *.
  - destruct Hx as [-> ->]. cbn [ad_objs app] in *. now apply IH.
  - destruct Hx as (obj & -> & _). cbn [app] in *. destruct k as [|k]; cbn [nth_error] in *; [injection Hk as <- <- <-; eauto|now apply IH].
Qed.

Lemma effective_solver z g o : exists pol, base_solver g (completed z o) =
  new_solver pol (o_timeout (effective z g o)) (o_limit (effective z g o)) (o_compile (effective z g o)).
Proof. destruct g, z; unfold effective, its_limit; cbn [base_solver completed o_timeout o_limit o_compile]; eexists; unfold options_solver, new_solver; cbn [o_policy o_timeout o_limit o_compile]; unfold sudoku_limit; try destruct (o_limit o); reflexivity. Qed.

Lemma decode_nth l os k obj sv : nth_error os k = Some (obj, sv) -> forall ys T, mapM (decode_all l os) ys = Ok T ->
  exists bs, mapM (puzzle_decode obj) ys = Ok bs /\ Forall2 (fun p b => nth_error (snd p) k = Some b) T bs.
Proof.
  intros Hk. induction ys as [|s ys IH]; intros T H; cbn [mapM] in *; [injection H as <-; exists []; split; [reflexivity|constructor]|].
  unfold decode_all at 1 in H. destruct (mapM (fun o => puzzle_decode (fst o) s) os) as [rs|] eqn:E; [|discriminate]. cbn [bind] in H.
  destruct (mapM (decode_all l os) ys) as [T'|]; [|discriminate]. cbn [bind] in H. injection H as <-. destruct (IH T' eq_refl) as (bs & -> & Hf).
  assert (Hd : exists b, puzzle_decode obj s = Ok b /\ nth_error rs k = Some b).
  { clear - Hk E. revert k rs Hk E. induction os as [|o os IH]; intros k rs Hk E; [destruct k; discriminate|]. cbn [mapM] in E.
    destruct (puzzle_decode (fst o) s) as [b|] eqn:Eb; [|discriminate]. cbn [bind] in E. destruct (mapM _ os) as [rs'|]; [|discriminate]. injection E as <-.
    destruct k as [|k]; cbn [nth_error] in *; [injection Hk as ->; eauto|now apply IH]. }
  destruct Hd as (b & -> & Hn). cbn [bind]. exists (b :: bs). split; [reflexivity|]. constructor; [exact Hn|exact Hf].
Qed.

Lemma shared_exactly clk shuffle ps parts k z given o :
  Forall2 posed ps parts -> nth_error (puzzles ps) k = Some (z, given, o) -> shuffles shuffle ->
  parts_ok (o_compile (effective z given o)) parts ->
  exactly_component (fun fuel => shared_run clk shuffle fuel ps k) k (jointly parts)
    (o_timeout (effective z given o)) (o_limit (effective z given o)).
Proof.
  intros Hp Hk Hs Hok. destruct (realise ps parts Hp) as (l & <- & <- & Hre).
  destruct (steps_nth l Hre k z given o Hk) as (obj & Ho). destruct (effective_solver z given o) as (pol & Es). rewrite Es in Ho. clear Es.
  set (eo := effective z given o) in *. set (cmp := o_compile eo) in *. set (t := o_timeout eo) in *. set (li := o_limit eo) in *.
  destruct (steps_start l cmp Hre Hok) as (w & Ew & Hb).
  assert (Ec : construct (shared_init (map spiece l)) = Ok (flat_map sobjs l, new_env w)).
  { unfold construct, shared_init, op_bind. rewrite Ew. unfold op_ret. now rewrite flat_map_concat_map. }
  exists (fun fuel => iterate_run clk shuffle fuel (decode_all l) (new_solver pol t li cmp) (flat_map sobjs l) (new_env w)).
  assert (Hex : exactly (fun fuel => iterate_run clk shuffle fuel (decode_all l) (new_solver pol t li cmp) (flat_map sobjs l) (new_env w)) (jointly (map spart l)) t li).
  { apply (riterate_exactly (known_vars (map spart l)) cmp clk shuffle (flat_map sobjs l) (new_env w) (flat_map sV l) (flat_map sC l)).
    - exact Hb.
    - intros x d v Hin Hv. apply in_flat_map in Hin. destruct Hin as (y & Hy & Hin). pose proof (proj1 (Forall_forall _ _) Hre y Hy) as Hr.
      destruct y as [[[u|z' g' o'] [u'|t']] dd]; cbn [realised] in Hr; try contradiction.
      + destruct Hr as [-> ->]. unfold sV in Hin. cbn in Hin. destruct u; cbn in Hin; try contradiction. destruct Hin as [E|[]]. injection E as -> ->.
        left. exists d. split; [|now left]. apply in_map_iff. eexists; split; [|exact Hy]; reflexivity.
      + destruct Hr as (ob & _ & Hr). right. exists t'. split; [apply in_map_iff; eexists; split; [|exact Hy]; reflexivity|].
        exact (y_dom _ _ _ _ _ _ _ _ Hr x d v Hin Hv).
    - intros x Hx. apply (known_names l Hre l [] x); [now rewrite app_nil_r|exact Hx].
    - clear - Hre Hk. revert k Hk. induction Hre as [|x l Hx Hl IH]; intros k Hk; [destruct k; discriminate|]. cbn [map puzzles flat_map] in *.
      destruct x as [[[u|z' g' o'] [u'|t']] d]; cbn [realised] in Hx; try contradiction; unfold spiece, sV in *; cbn [fst snd app] in *; fold spiece sV in *.
      + specialize (IH k Hk). destruct Hx as [-> ->]. cbn [ad_V]. destruct (uvars u); [exact IH|discriminate].
      + destruct Hx as (ob & _ & Hr). pose proof (d_vars _ _ _ _ _ _ (y_describes _ _ _ _ _ _ _ _ Hr)) as HV. destruct (ad_V d); [contradiction|discriminate].
    - exact Hs.
    - intros Ecmp p Hin. apply in_flat_map in Hin. destruct Hin as (y & Hy & Hin). pose proof (proj1 (Forall_forall _ _) Hre y Hy) as Hr.
      apply in_split in Hy. destruct Hy as (l1 & l2 & El). pose proof (ok_at l cmp Hok _ _ _ El) as Ho'.
      destruct y as [[[u|z' g' o'] [u'|t']] dd]; cbn [realised] in Hr; try contradiction; unfold sC in Hin; cbn [snd] in Hin.
      + destruct Hr as [-> ->]. cbn [ad_C] in Hin. unfold spart in Ho'. cbn [fst snd part_ok] in Ho'. destruct u as [x d|f|xs]; cbn [ubody u_ok] in *; [contradiction| |]; destruct Hin as [<-|[]]; [|exact Logic.I].
        now apply Ho'.
      + destruct Hr as (ob & _ & Hr). exact (d_safe _ _ _ _ _ _ (y_describes _ _ _ _ _ _ _ _ Hr) p Hin).
    - intros s Hg. destruct (steps_decode l s Hre Hg) as (rs & E & Hu & Hf). unfold decode_all. rewrite E. cbn [bind]. eexists. split; [reflexivity|].
      exists (val s). split; [reflexivity|]. now split.
    - intros s s' b Hg Hg' E E' x Hx. unfold decode_all in E, E'.
      destruct (mapM _ _) as [rs|] eqn:E1 in E; [|discriminate]. destruct (mapM _ _) as [rs'|] eqn:E2 in E'; [|discriminate]. cbn [bind] in E, E'.
      injection E as <-. injection E' as Ez ->. now apply (steps_inj l s s' Hre Hg Hg' rs).
    - intros [zs rs] (a & Ez & Hu & Hf). cbn [fst snd] in *. destruct (steps_all l a Hre Hu rs Hf) as (I1 & I2 & I3). exists a. split; [exact I1|]. split; [exact I2|].
      intros s Hsx. destruct (I3 s Hsx) as [J1 J2]. unfold decode_all. rewrite J1. cbn [bind]. now rewrite J2, Ez. }
  split; [exact Hex|]. intros fuel. destruct (iterate_run clk shuffle fuel (decode_all l) _ _ _) as [[[T r] i]|] eqn:Er.
  - pose proof (proj1 (proj2 Hex fuel T r i Er)) as ->. unfold iterate_run in Er. unfold shared_run. rewrite Ec, Ho.
    destruct (solve_all clk shuffle fuel (new_env w) _ no_args) as [[[ys e'] r']|]; [|discriminate].
    destruct (mapM (decode_all l (flat_map sobjs l)) ys) as [T'|] eqn:Em; [|discriminate]. injection Er as -> -> <-.
    destruct (decode_nth l _ k obj _ Ho ys T Em) as (bs & -> & Hf). auto.
  - unfold iterate_run in Er. unfold shared_run. rewrite Ec, Ho. destruct (solve_all clk shuffle fuel (new_env w) _ no_args) as [[[ys e'] r']|]; [|exact Logic.I].
    destruct (mapM (decode_all l (flat_map sobjs l)) ys); discriminate.
Qed.

(** Names taken already. *)
Lemma shared_taken clk shuffle fuel ps parts k z given o t rest :
  Forall2 posed ps parts -> parts_ok false parts -> poses z t -> (exists x v v', task_var t x v /\ known_vars parts x v') ->
  shared_run clk shuffle fuel (ps ++ PPuzzle z given o :: rest) k = Some ([], Some ValueError, None).
Proof.
  intros Hp Hok Hz (x & v & v' & Hv & Hv'). destruct (realise ps parts Hp) as (l & <- & <- & Hre). destruct (poses_ready z t Hz) as (obj & V & C & Hr).
  destruct (steps_start l false Hre Hok) as (w & Ew & Hb).
  destruct (adds_taken P0 [] (puzzle_init z) obj V C (d_adds _ _ _ _ _ _ (y_describes _ _ _ _ _ _ _ _ Hr)) (known_vars (map spart l)) false (flat_map sV l) w (flat_map sC l)) as (w' & E).
  { now rewrite app_nil_r. }
  { exists x. split; [apply (known_names l Hre l [] x); [now rewrite app_nil_r|eauto]|]. apply (y_names _ _ _ _ _ _ _ _ Hr). eauto. }
  unfold shared_run, construct, shared_init, op_bind at 1.
  assert (G : forall ps' w0 os w1, op_for add_piece ps' w0 = (w1, Ok os) -> puzzle_init z w1 = (w', Err ValueError) ->
    exists w2, op_for add_piece (ps' ++ PPuzzle z given o :: rest) w0 = (w2, Err ValueError)).
  { induction ps' as [|p ps' IH]; intros w0 os w1 E1 E2; cbn [app op_for] in *.
    - unfold op_ret in E1. injection E1 as -> <-. unfold op_bind at 1. cbn [add_piece]. unfold op_bind at 1. rewrite E2. eauto.
    - unfold op_bind in E1 at 1. unfold op_bind at 1. destruct (add_piece p w0) as [w2 [b|ex]]; [|discriminate]. unfold op_bind in E1 at 1. unfold op_bind at 1.
      destruct (op_for add_piece ps' w2) as [w3 [bs|ex]] eqn:E3; [|discriminate]. unfold op_ret in E1. injection E1 as -> _. destruct (IH w2 bs w1 E3 E2) as (w4 & ->). eauto. }
  destruct (G _ _ _ _ Ew E) as (w2 & ->). reflexivity.
Qed.

(** Puzzles that nothing relates. *)
Lemma steps_free l : Forall realised l -> unrelated (map spart l) -> NoDup (names_of (flat_map sV l)) ->
  (forall x, In x l -> forall p y, In p (sC x) -> In y (p_names p) -> In y (names_of (sV x))) ->
  forall zs rs, Forall2 (fun v d => In v d) zs (user_domains (map spart l)) -> Forall2 answered (tasks (map spart l)) rs ->
  exists a, (forall x d, In (x, d) (flat_map sV l) -> In (a x) d) /\ (forall p, In p (flat_map sC l) -> sat P0 a p) /\
    map a (user_vars (map spart l)) = zs /\
    forall s, (forall x, In x (names_of (flat_map sV l)) -> dget s x = Some (a x)) -> mapM (fun o => puzzle_decode (fst o) s) (flat_map sobjs l) = Ok rs.
Proof.
  intros Hre. induction Hre as [|x l Hx Hl IH]; intros Hun Hnd Hcl zs rs Hz Hr; cbn [map flat_map tasks user_domains user_vars] in *.
  - inversion Hz. inversion Hr. exists (fun _ => 0). repeat split; intros; contradiction || reflexivity.
  - rewrite names_app in Hnd. assert (Hd : forall y, In y (names_of (sV x)) -> ~ In y (names_of (flat_map sV l))).
    { intros y H1 H2. apply in_split in H1. destruct H1 as (l1 & l2 & E). rewrite E in Hnd. rewrite <- app_assoc in Hnd. apply NoDup_remove_2 in Hnd.
      apply Hnd. rewrite app_assoc, in_app_iff. now right. }
    assert (Hnd' : NoDup (names_of (flat_map sV l))).
    { clear - Hnd. induction (names_of (sV x)) as [|y ys IH]; [exact Hnd|]. inversion Hnd; subst. now apply IH. }
    assert (Hun' : unrelated (map spart l)) by (intros u Hin; apply Hun; now right).
    assert (Hcl' : forall x0, In x0 l -> forall p y, In p (sC x0) -> In y (p_names p) -> In y (names_of (sV x0))) by (intros; eapply Hcl; eauto; now right).
    assert (G : forall zs1 zs2 rs1 rs2 (a1 : assignment),
      Forall2 (fun v d => In v d) zs2 (user_domains (map spart l)) -> Forall2 answered (tasks (map spart l)) rs2 ->
      (forall x0 d, In (x0, d) (sV x) -> In (a1 x0) d) -> (forall p, In p (sC x) -> sat P0 a1 p) ->
      map a1 (user_vars [spart x]) = zs1 -> (forall y, In y (user_vars [spart x]) -> In y (names_of (sV x))) ->
      (forall s, (forall x0, In x0 (names_of (sV x)) -> dget s x0 = Some (a1 x0)) -> mapM (fun o => puzzle_decode (fst o) s) (sobjs x) = Ok rs1) ->
      exists a, (forall x0 d, In (x0, d) (sV x ++ flat_map sV l) -> In (a x0) d) /\ (forall p, In p (sC x ++ flat_map sC l) -> sat P0 a p) /\
        map a (user_vars [spart x] ++ user_vars (map spart l)) = zs1 ++ zs2 /\
        forall s, (forall x0, In x0 (names_of (sV x ++ flat_map sV l)) -> dget s x0 = Some (a x0)) ->
          mapM (fun o => puzzle_decode (fst o) s) (sobjs x ++ flat_map sobjs l) = Ok (rs1 ++ rs2)).
    { intros zs1 zs2 rs1 rs2 a1 Hz2 Hr2 A1 A2 A3 A4 A5. destruct (IH Hun' Hnd' Hcl' zs2 rs2 Hz2 Hr2) as (a2 & B1 & B2 & B3 & B4).
      set (a := fun y => if in_dec string_dec y (names_of (sV x)) then a1 y else a2 y).
      assert (E1 : forall y, In y (names_of (sV x)) -> a y = a1 y) by (intros y Hy; unfold a; destruct (in_dec _ _ _); [reflexivity|contradiction]).
      assert (E2 : forall y, In y (names_of (flat_map sV l)) -> a y = a2 y).
      { intros y Hy. unfold a. destruct (in_dec _ _ _) as [Hi|]; [exfalso; exact (Hd y Hi Hy)|reflexivity]. }
      assert (Hin : forall (V : dict (list Z)) y d, In (y, d) V -> In y (names_of V)) by (intros V y d H; apply (in_map fst) in H; exact H).
      exists a. split; [|split; [|split]].
      - intros y d H. apply in_app_or in H. destruct H as [H|H]; [rewrite E1; eauto|rewrite E2; eauto].
      - intros p H. apply in_app_or in H. destruct H as [H|H].
        + apply (sat_agree a1); [|now apply A2]. intros y Hy. symmetry. apply E1. eapply (Hcl x); eauto. now left.
        + apply (sat_agree a2); [|now apply B2]. intros y Hy. symmetry. apply E2. apply in_flat_map in H. destruct H as (x' & Hx' & H).
          apply names_flat. exists x'. split; [exact Hx'|]. eapply Hcl'; eauto.
      - rewrite map_app. f_equal; [rewrite <- A3|rewrite <- B3]; apply map_ext_in; intros y Hy; [apply E1, A4, Hy|apply E2].
        clear - Hy Hl. apply in_flat_map in Hy. destruct Hy as (x' & Hx' & Hy). apply in_map_iff in Hx'. destruct Hx' as (st & <- & Hst).
        pose proof (proj1 (Forall_forall _ _) Hl st Hst) as Hr. apply names_flat. exists st. split; [exact Hst|].
        destruct st as [[[u|z' g' o'] [u'|t']] dd]; cbn [realised] in Hr; try contradiction; unfold spart in Hy; cbn [fst snd] in Hy; try contradiction.
        destruct Hr as [-> ->]. destruct u; cbn in Hy; try contradiction. destruct Hy as [<-|[]]. now left.
      - intros s Hs. rewrite mapM_app, A5, B4; [reflexivity| |]; intros y Hy; rewrite Hs; try (rewrite names_app, in_app_iff; auto); f_equal; auto. }
    destruct x as [[[u|z g o] [u'|t]] d]; cbn [realised] in Hx; try contradiction.
    + destruct Hx as [-> ->]. destruct (Hun u (or_introl eq_refl)) as (y & dm & ->). unfold spart, sV, sC, sobjs in *. cbn in *. fold spart sV sC sobjs in *.
      inversion Hz as [|v d0 zs2 ds Hv Hz2 E1 E2]; subst. apply (G [v] zs2 [] rs (fun _ => v)); [exact Hz2|exact Hr| |intros p []|reflexivity|auto|reflexivity].
      intros x0 d [E|[]]. injection E as <- <-. exact Hv.
    + destruct Hx as (obj & Eo & Hrd). unfold spart, sV, sC, sobjs in *. cbn [fst snd app] in *. fold spart sV sC sobjs in *.
      inversion Hr as [|t0 r ts rs2 Ha Hr2 E1 E2]; subst. destruct (d_all _ _ _ _ _ _ (y_describes _ _ _ _ _ _ _ _ Hrd) r Ha) as (a1 & A1 & A2 & A3).
      apply (G [] zs [r] rs2 a1); [exact Hz|exact Hr2|exact A1|exact A2|reflexivity|intros y []|].
      intros s Hs. rewrite Eo. cbn [mapM fst]. rewrite (A3 s Hs). reflexivity.
Qed.

Lemma unrelated_independently ps parts : Forall2 posed ps parts -> parts_ok false parts -> unrelated parts ->
  forall p, jointly parts p <-> independently parts p.
Proof.
  intros Hp Hok Hun [zs rs]. destruct (realise ps parts Hp) as (l & <- & <- & Hre). unfold jointly, independently. cbn [fst snd]. split.
  - intros (a & <- & Hu & Hf). split.
    + clear - Hu. induction l as [|x l IH]; [constructor|]. cbn [map user_vars user_domains flat_map]. rewrite map_app. apply Forall2_app.
      * destruct (spart x) as [[y d| |]|] eqn:E; cbn; try constructor; try constructor. apply (Hu (UVar y d)). left. exact E.
      * apply IH. intros u Hin. apply Hu. now right.
    + clear - Hf. induction Hf as [|t r ts rs [H _] Hf IH]; constructor; auto.
  - intros [Hz Hr]. destruct (steps_start l false Hre Hok) as (w & Ew & Hb).
    destruct (steps_free l Hre Hun (r_names _ _ _ _ _ _ Hb)) with (zs := zs) (rs := rs) as (a & A1 & A2 & A3 & A4); [|exact Hz|exact Hr|].
    { intros x Hx p y Hpx Hy. pose proof (proj1 (Forall_forall _ _) Hre x Hx) as Hr'. destruct x as [[[u|z g o] [u'|t]] d]; cbn [realised] in Hr'; try contradiction.
      - destruct Hr' as [-> ->]. destruct (Hun u) as (y' & dm & ->); [apply in_map_iff; eexists; split; [|exact Hx]; reflexivity|]. contradiction Hpx.
      - destruct Hr' as (obj & _ & Hr'). exact (y_closed _ _ _ _ _ _ _ _ Hr' p y Hpx Hy). }
    set (V := flat_map sV l) in *. set (s := map (fun x => (x, a x)) (names_of V)).
    assert (Hs : forall x, In x (names_of V) -> dget s x = Some (a x)) by (intros x Hx; apply dget_map_fun; exact Hx).
    assert (Hv : forall x, In x (names_of V) -> val s x = a x) by (intros x Hx; unfold val, dget_or; now rewrite Hs).
    assert (Hg : good_solution P0 V (flat_map sC l) s).
    { split.
      - intros x d Hin. assert (Hx : In x (names_of V)) by (apply (in_map fst) in Hin; exact Hin). rewrite Hv, Hs; auto.
      - intros p Hin. apply (sat_agree a); [|now apply A2]. intros y Hy. symmetry. apply Hv. exact (r_known _ _ _ _ _ _ Hb p y Hin Hy). }
    destruct (steps_decode l s Hre Hg) as (rs' & E & Hu & Hf). rewrite (A4 s Hs) in E. injection E as <-.
    exists (val s). split; [|split; [exact Hu|exact Hf]]. rewrite <- A3. apply map_ext_in. intros y Hy. apply Hv.
    apply (known_names l Hre l [] y); [now rewrite app_nil_r|]. apply in_flat_map in Hy. destruct Hy as (x & Hx & Hy). destruct x as [[z d| |]|]; try contradiction. destruct Hy as [->|[]].
    destruct d as [|v d]; [exists 0; left; exists []; auto|exists v; left; exists (v :: d); split; [exact Hx|left; now left]].
Qed.

(** Options beside a solver. *)
Lemma options_ignored : exists z given o,
  poses z (TGraph ["a"; "b"]%string [("a", "b")]%string ["red"; "blue"]%string) /\ o_limit o = Solver.LNum 1 /\
  shared_run (fun _ => 0) (fun l => l) 1000 [PPuzzle z None o] 0 = Some ([RColours [("a", "red"); ("b", "blue")]%string], None, Some ILimit) /\
  shared_run (fun _ => 0) (fun l => l) 1000 [PPuzzle z (Some given) o] 0 =
    Some ([RColours [("a", "red"); ("b", "blue")]%string; RColours [("a", "blue"); ("b", "red")]%string], None, None).
Proof.
  exists (ZGraph ["a"; "b"]%string [("a", "b")]%string ["red"; "blue"]%string), (Options (Some ORDERED) LNone LNone true), (Options None LNone (LNum 1) true).
  split; [|split; [reflexivity|split; vm_compute; reflexivity]].
  cbn [poses]. split; [reflexivity|]. split; [reflexivity|]. split; [reflexivity|].
  split; [split; [repeat constructor; cbn; intuition discriminate|intros x y [E|[]]; injection E as <- <-; cbn; intuition discriminate]|].
  split; [discriminate|]. repeat constructor; cbn; intuition discriminate.
Qed.
