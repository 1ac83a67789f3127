(** Puzzles on one Model. *)
From Verif Require Import PuzzleShared SpecPuzzleShared SpecPuzzle SpecSafe SpecSolve SpecQueens SpecGraph SpecSudoku SpecCryptarithm SpecNonogram SpecEinstein SpecPuzzleUser
  ExprFacts ExprProps DictFacts PuzzleFacts PuzzleRel PuzzleUserFacts PuzzleUserRel PuzzleUserProps PuzzleUserProps2 PuzzleFrame.
Open Scope list_scope.
Open Scope Z_scope.

Definition is_ready' (z : puzzle) (t : task) : Prop :=
  exists obj V C, ready (puzzle_init z) obj V C puzzle_decode (answered t) (task_values t) (task_var t).

Lemma wrap_ready {A B} (init : op A) (decode : A -> subst -> res B) ok means D (wo : A -> pobj) (wr : B -> answer) t :
  is_ready init decode ok means D -> task_var t = D ->
  (forall o s, puzzle_decode (wo o) s = (let! b := decode o s in Ok (wr b))) -> (forall b b', wr b = wr b' -> b = b') ->
  (forall b', answered t b' -> exists b, b' = wr b) -> (forall b, answered t (wr b) <-> ok b) -> (forall b a, task_values t (wr b) a <-> means b a) ->
  exists obj V C, ready (op_bind init (fun o => op_ret (wo o))) obj V C puzzle_decode (answered t) (task_values t) (task_var t).
Proof.
  intros (obj & V & C & Hr) -> H1 H2 H3 H4 H5. exists (wo obj), V, C. eapply ready_wrap; eauto.
Qed.

Ltac wrap := intros; try reflexivity; try tauto; try congruence;
  match goal with
  | |- exists b, _ = _ => match goal with b' : answer, H : answered _ _ |- _ => destruct b'; try contradiction; eexists; reflexivity end
  end.

Lemma poses_ready z t : poses z t -> is_ready' z t.
Proof.
  unfold is_ready'. destruct z as [n|nodes edges labels|s|order source avoid|rows cols|], t as [n'|nodes' edges' labels'|s'|q|rows' cols'|]; cbn [poses puzzle_init]; try contradiction.
  - intros [-> Hn]. apply (wrap_ready _ _ _ _ _ (ObQueens n) RBoard _ (queens_ready n Hn)); wrap.
  - intros (-> & -> & -> & H1 & H2 & H3). apply (wrap_ready _ _ _ _ _ (ObGraph labels) RColours _ (graph_ready nodes edges labels H1 H2 H3)); wrap.
  - intros (-> & H1 & H2). apply (wrap_ready _ _ _ _ _ (ObSudoku s) RGrid _ (sudoku_ready s H1 H2)); wrap.
  - intros (H1 & H2 & H3). apply (wrap_ready _ _ _ _ _ ObCryptarithm RLetters _ (cry_ready source q order avoid H1 H2 H3)); wrap.
  - intros (-> & -> & H1 & H2 & H3). apply (wrap_ready _ _ _ _ _ (ObNonogram (length cols)) RPicture _ (nonogram_ready rows cols H1 H2 H3)); wrap.
  - intros _. apply (wrap_ready _ _ _ _ _ ObEinstein RHouses _ einstein_ready); wrap.
Qed.

(** ** What each statement adds *)
Record added_data : Type := AD { ad_objs : list (pobj * solver); ad_V : dict (list Z); ad_C : list pbody }.
Definition step_of : Type := (piece * part * added_data)%type.
Definition spiece (x : step_of) : piece := fst (fst x).
Definition spart (x : step_of) : part := snd (fst x).
Definition sobjs (x : step_of) := ad_objs (snd x).
Definition sV (x : step_of) := ad_V (snd x).
Definition sC (x : step_of) := ad_C (snd x).

Definition realised (x : step_of) : Prop :=
  match x with
  | (PUser u, Stmt u', d) => u' = u /\ d = AD [] (uvars u) (ubody u)
  | (PPuzzle z g o, Task t, d) => exists obj, ad_objs d = [(obj, base_solver g (completed z o))] /\
      ready (puzzle_init z) obj (ad_V d) (ad_C d) puzzle_decode (answered t) (task_values t) (task_var t)
  | _ => False
  end.

Lemma realise ps parts : Forall2 posed ps parts -> exists l, map spiece l = ps /\ map spart l = parts /\ Forall realised l.
Proof.
  induction 1 as [|p x ps parts H _ (l & <- & <- & IH)]; [exists []; repeat split; constructor|].
  destruct p as [u|z g o], x as [u'|t]; cbn [posed] in H; try contradiction.
  - exists ((PUser u, Stmt u', AD [] (uvars u) (ubody u)) :: l). repeat split. constructor; [|exact IH]. now split.
  - destruct (poses_ready z t H) as (obj & V & C & Hr). exists ((PPuzzle z g o, Task t, AD [(obj, base_solver g (completed z o))] V C) :: l).
    repeat split. constructor; [|exact IH]. exists obj. now split.
Qed.

Lemma op_for_map {A B C} (f : B -> op C) (g : A -> B) l : forall w, op_for f (map g l) w = op_for (fun a => f (g a)) l w.
Proof.
  induction l as [|a l IH]; intros w; [reflexivity|]. cbn [map op_for]. unfold op_bind. destruct (f (g a) w) as [w1 [c|ex]]; [|reflexivity].
  rewrite IH. reflexivity.
Qed.

Section Steps.
Variables (l : list step_of) (cmp : bool).
Hypothesis Hre : Forall realised l.
Hypothesis Hok : parts_ok cmp (map spart l).

Let D := known_vars (map spart l).
Let V := flat_map sV l.
Let C := flat_map sC l.
Let objs := flat_map sobjs l.

Lemma re_in x : In x l -> realised x. Proof. apply Forall_forall. exact Hre. Qed.

Lemma ok_at l1 x l2 : l = l1 ++ x :: l2 -> part_ok (known_vars (map spart l1)) cmp (spart x).
Proof. intros E. apply (Hok (map spart l1) (spart x) (map spart l2)). rewrite E, map_app. reflexivity. Qed.

Lemma known_app l1 l2 x v : known_vars (l1 ++ l2) x v <-> known_vars l1 x v \/ known_vars l2 x v.
Proof.
  unfold known_vars. split.
  - intros [(d & Hin & Hd)|(t & Hin & Ht)]; apply in_app_or in Hin; destruct Hin; eauto 6.
  - intros [[(d & Hin & Hd)|(t & Hin & Ht)]|[(d & Hin & Hd)|(t & Hin & Ht)]]; [left|right|left|right]; eexists; (split; [apply in_or_app; eauto|eassumption]).
Qed.
Lemma known_names l1 l2 x : l = l1 ++ l2 -> In x (names_of (flat_map sV l1)) <-> exists v, known_vars (map spart l1) x v.
Proof.
  intros E. rewrite names_flat. split.
  - intros (y & Hy & Hx). assert (Hr : realised y) by (apply re_in; rewrite E; apply in_or_app; now left).
    destruct y as [[[u|z g o] [u'|t]] d]; cbn [realised] in Hr; try contradiction.
    + destruct Hr as [-> ->]. unfold sV in Hx. cbn in Hx. destruct u as [y d| |]; try contradiction. destruct Hx as [<-|[]]. cbn [fst].
      assert (Hin : In (Stmt (UVar y d)) (map spart l1)) by (apply in_map_iff; eexists; split; [|exact Hy]; reflexivity).
      destruct d as [|v d]; [exists 0; left; exists []; auto|]. exists v. left. exists (v :: d). split; [exact Hin|left; now left].
    + destruct Hr as (obj & _ & Hr). apply (y_names _ _ _ _ _ _ _ _ Hr) in Hx. destruct Hx as (v & Hv). exists v. right. exists t.
      split; [|exact Hv]. apply in_map_iff. eexists; split; [|exact Hy]; reflexivity.
  - intros (v & [(d & Hin & Hd)|(t & Hin & Ht)]); apply in_map_iff in Hin; destruct Hin as (y & Ey & Hy); exists y; (split; [exact Hy|]);
      (assert (Hr : realised y) by (apply re_in; rewrite E; apply in_or_app; now left)); destruct y as [[[u|z g o] [u'|t']] d']; cbn [realised] in Hr; try contradiction;
      unfold spart in Ey; cbn in Ey; try discriminate; injection Ey as ->.
    + destruct Hr as [<- ->]. now left.
    + destruct Hr as (obj & _ & Hr). apply (y_names _ _ _ _ _ _ _ _ Hr). eauto.
Qed.

(** A variable known early has the same values at the end. *)
Lemma known_same l1 l2 x v : l = l1 ++ l2 -> (exists v', known_vars (map spart l1) x v') -> D x v -> known_vars (map spart l1) x v.
Proof.
  intros E (v' & Hv') Hd. unfold D in Hd. rewrite E, map_app in Hd. apply known_app in Hd. destruct Hd as [H|H]; [exact H|exfalso].
  assert (G : forall y, In y l2 -> (exists d, spart y = Stmt (UVar x d)) \/ (exists t, spart y = Task t /\ task_var t x v) -> False).
  { intros y Hy Hc. apply in_split in Hy. destruct Hy as (m1 & m2 & ->). rewrite app_assoc in E. pose proof (ok_at _ _ _ E) as Ho.
    assert (Hk : known_vars (map spart (l1 ++ m1)) x v') by (rewrite map_app; apply known_app; now left).
    destruct Hc as [(d & Ey)|(t & Ey & Ht)]; rewrite Ey in Ho; cbn [part_ok u_ok] in Ho.
    - destruct Ho as (_ & Hn & _). exact (Hn v' Hk).
    - exact (Ho x v v' Ht Hk). }
  destruct H as [(d & Hin & Hd)|(t & Hin & Ht)]; apply in_map_iff in Hin; destruct Hin as (y & Ey & Hy); apply (G y Hy); [left|right]; eauto.
Qed.

Lemma step_radd l1 x l2 : l = l1 ++ x :: l2 -> radds D cmp P0 (flat_map sV l1) (add_piece (spiece x)) (sobjs x) (sV x) (sC x).
Proof.
  intros E. pose proof (ok_at l1 x l2 E) as Ho. assert (Hr : realised x) by (apply re_in; rewrite E; apply in_or_app; right; now left).
  destruct x as [[[u|z g o] [u'|t]] d]; cbn [realised] in Hr; try contradiction; unfold spart in Ho; cbn [fst snd part_ok] in Ho; unfold spiece, sobjs, sV, sC; cbn [fst snd add_piece].
  - destruct Hr as [-> ->]. cbn [ad_objs ad_V ad_C].
    rewrite <- (app_nil_r (uvars u)), <- (app_nil_r (ubody u)). eapply radds_bind; [|apply radds_ret].
    destruct u as [x d|f|xs]; cbn [u_ok add_user uvars ubody] in *.
    + destruct Ho as (Hg & Hnew & Hnd). change [(x, d)] with ([(x, d)] ++ @nil (name * list Z)).
      change (@nil pbody) with (@nil pbody ++ []). eapply radds_bind; [|apply radds_ret].
      apply radds_var; [exact Hg| |exact Hnd]. intros Hin. apply (known_names l1 _ x E) in Hin. destruct Hin as (v & Hv). exact (Hnew v Hv).
    + destruct Ho as (Hk & Hd & Hdiv & _ & Hc). apply radds_form.
      * now apply constrains_bool_int.
      * intros x Hx. now apply (known_names l1 _ x E), Hk.
      * destruct (pick_values _ _ Hk) as (a & Ha). exists a. exact (Hd a Ha).
      * intros a Ha. apply Hd. intros x Hx. apply (known_same l1 _ x _ E (Hk x Hx)). exact (Ha x Hx).
      * exact Hdiv.
    + apply radds_diff. intros x Hx. now apply (known_names l1 _ x E), Ho.
  - destruct Hr as (obj & Eo & Hr). rewrite Eo. rewrite <- (app_nil_r (ad_V d)), <- (app_nil_r (ad_C d)). eapply radds_bind; [|apply radds_ret].
    rewrite <- (app_nil_r (flat_map _ l1)). apply (adds_radds P0 [] _ _ _ _ (d_adds _ _ _ _ _ _ (y_describes _ _ _ _ _ _ _ _ Hr))).
    intros x Hx Hin. apply (known_names l1 _ x E) in Hx. destruct Hx as (v' & Hv'). apply (y_names _ _ _ _ _ _ _ _ Hr) in Hin. destruct Hin as (v & Hv).
    exact (Ho x v v' Hv Hv').
Qed.

Lemma built_start dom : rbuilt dom cmp P0 init_world [] [].
Proof. apply rbuilt_of; [exact built_init|]. intros p x []. Qed.

Lemma steps_start : exists w, op_for add_piece (map spiece l) init_world = (w, Ok (map sobjs l)) /\ rbuilt D cmp P0 w V C.
Proof.
  destruct (radds_for D cmp P0 (fun x => add_piece (spiece x)) sobjs sV sC l [] step_radd init_world [] (built_start D)) as (w & E & Hb).
  exists w. rewrite op_for_map. split; [exact E|exact Hb].
Qed.

(** ** The solutions *)
Definition decode_all (os : list (pobj * solver)) (s : subst) : res (list Z * list answer) :=
  let! rs := mapM (fun o => puzzle_decode (fst o) s) os in Ok (map (val s) (user_vars (map spart l)), rs).

End Steps.

Lemma mapM_app {A B} (f : A -> res B) l l' : mapM f (l ++ l') = (let! x := mapM f l in let! y := mapM f l' in Ok (x ++ y)).
Proof.
  induction l as [|a l IH]; cbn [app mapM bind]; [destruct (mapM f l'); reflexivity|]. destruct (f a) as [b|]; cbn [bind]; [|reflexivity].
  rewrite IH. destruct (mapM f l); cbn [bind]; [|reflexivity]. destruct (mapM f l'); reflexivity.
Qed.

Lemma good_app V1 V2 C1 C2 s : good_solution P0 (V1 ++ V2) (C1 ++ C2) s <-> good_solution P0 V1 C1 s /\ good_solution P0 V2 C2 s.
Proof.
  unfold good_solution. split.
  - intros [H1 H2]. split; (split; [intros x d Hin; apply H1|intros p Hin; apply H2]; apply in_or_app; auto).
  - intros [[H1 H2] [H3 H4]]. split; [intros x d Hin|intros p Hin]; apply in_app_or in Hin; destruct Hin; auto.
Qed.

Lemma steps_decode l s : Forall realised l -> good_solution P0 (flat_map sV l) (flat_map sC l) s ->
  exists rs, mapM (fun o => puzzle_decode (fst o) s) (flat_map sobjs l) = Ok rs /\ (forall u, In (Stmt u) (map spart l) -> u_holds (val s) u) /\
    Forall2 (fun t r => answered t r /\ task_values t r (val s)) (tasks (map spart l)) rs.
Proof.
  induction 1 as [|x l Hx Hl IH]; intros Hg; [exists []; repeat split; [intros u []|constructor]|]. cbn [flat_map map] in *.
  apply good_app in Hg. destruct Hg as [Hg1 Hg2]. destruct (IH Hg2) as (rs & Em & Hu & Hf). rewrite mapM_app, Em.
  destruct x as [[[u|z g o] [u'|t]] d]; cbn [realised] in Hx; try contradiction; unfold sobjs, sV, sC, spart in *; cbn [fst snd tasks flat_map] in *.
  - destruct Hx as [-> ->]. cbn [ad_objs ad_V ad_C] in *. cbn [mapM bind app]. exists rs. split; [reflexivity|]. split; [|exact Hf].
    intros u0 [E|Hin]; [injection E as <-|now apply Hu].
    destruct Hg1 as [Hd Hc]. destruct u as [x d|f|xs]; cbn [u_holds] in *.
    + apply (Hd x d). now left.
    + apply (Hc (PForm f)). now left.
    + apply (Hc (PDiff xs)). now left.
  - destruct Hx as (obj & -> & Hr). cbn [mapM bind fst]. destruct (d_dec _ _ _ _ _ _ (y_describes _ _ _ _ _ _ _ _ Hr) s Hg1) as (b & Eb & Hb). rewrite Eb. cbn [bind app].
    exists (b :: rs). split; [reflexivity|]. split; [intros u [E|Hin]; [discriminate|now apply Hu]|]. constructor; [|exact Hf].
    split; [exact Hb|]. exact (y_means _ _ _ _ _ _ _ _ Hr s b Hg1 Eb).
Qed.

Lemma steps_inj l s s' : Forall realised l -> good_solution P0 (flat_map sV l) (flat_map sC l) s -> good_solution P0 (flat_map sV l) (flat_map sC l) s' ->
  forall rs, mapM (fun o => puzzle_decode (fst o) s) (flat_map sobjs l) = Ok rs -> mapM (fun o => puzzle_decode (fst o) s') (flat_map sobjs l) = Ok rs ->
  map (val s) (user_vars (map spart l)) = map (val s') (user_vars (map spart l)) -> forall x, In x (names_of (flat_map sV l)) -> val s x = val s' x.
Proof.
  induction 1 as [|x l Hx Hl IH]; intros Hg Hg' rs E E' Hz y Hy; [contradiction|]. cbn [flat_map map] in *.
  apply good_app in Hg. destruct Hg as [Hg1 Hg2]. apply good_app in Hg'. destruct Hg' as [Hg1' Hg2']. rewrite mapM_app in E, E'.
  rewrite names_app, in_app_iff in Hy.
  destruct x as [[[u|z g o] [u'|t]] d]; cbn [realised] in Hx; try contradiction; unfold sobjs, sV, sC, spart in *; cbn [fst snd user_vars flat_map] in *.
  - destruct Hx as [-> ->]. cbn [ad_objs ad_V ad_C] in *. cbn [mapM bind app] in E, E'. fold sobjs in E, E'.
    destruct (mapM _ (flat_map sobjs l)) as [rs1|] eqn:E1 in E; [|discriminate]. destruct (mapM _ (flat_map sobjs l)) as [rs2|] eqn:E2 in E'; [|discriminate].
    cbn [bind] in E, E'. injection E as ->. injection E' as ->.
    rewrite !map_app in Hz. assert (Hz' : map (val s) (user_vars (map spart l)) = map (val s') (user_vars (map spart l)) /\ (forall x, In x (names_of (uvars u)) -> val s x = val s' x)).
    { destruct u as [x d|f|xs]; cbn in Hz; [injection Hz as H1 H2|split; [exact Hz|intros x []]|split; [exact Hz|intros x []]].
      split; [exact H2|]. intros x0 [<-|[]]. exact H1. }
    destruct Hz' as [Hz1 Hz2]. destruct Hy as [Hy|Hy]; [now apply Hz2|]. eapply IH; eauto.
  - destruct Hx as (obj & Eo & Hr). rewrite Eo in E, E'. cbn [mapM bind fst] in E, E'.
    destruct (puzzle_decode obj s) as [b|] eqn:Eb; [|discriminate]. destruct (puzzle_decode obj s') as [b'|] eqn:Eb'; [|discriminate]. cbn [bind] in E, E'.
    fold sobjs in E, E'.
    destruct (mapM _ (flat_map sobjs l)) as [rs1|] eqn:E1 in E; [|discriminate]. destruct (mapM _ (flat_map sobjs l)) as [rs2|] eqn:E2 in E'; [|discriminate].
    cbn [bind app] in E, E'. injection E as <-. injection E' as -> ->.
    destruct Hy as [Hy|Hy]; [|eapply IH; eauto]. exact (d_inj _ _ _ _ _ _ (y_describes _ _ _ _ _ _ _ _ Hr) s s' b Hg1 Hg1' Eb Eb' y Hy).
Qed.

Lemma steps_all l a : Forall realised l -> (forall u, In (Stmt u) (map spart l) -> u_holds a u) ->
  forall rs, Forall2 (fun t r => answered t r /\ task_values t r a) (tasks (map spart l)) rs ->
  (forall x d, In (x, d) (flat_map sV l) -> In (a x) d) /\ (forall p, In p (flat_map sC l) -> sat P0 a p) /\
  forall s, (forall x, In x (names_of (flat_map sV l)) -> dget s x = Some (a x)) ->
    mapM (fun o => puzzle_decode (fst o) s) (flat_map sobjs l) = Ok rs /\ map (val s) (user_vars (map spart l)) = map a (user_vars (map spart l)).
Proof.
  induction 1 as [|x l Hx Hl IH]; intros Hu rs Hf; cbn [map] in *.
  - inversion Hf; subst. repeat split; contradiction || reflexivity.
  - assert (Hu' : forall u, In (Stmt u) (map spart l) -> u_holds a u) by (intros u Hin; apply Hu; now right).
    destruct x as [[[u|z g o] [u'|t]] d]; cbn [realised] in Hx; try contradiction; cbn [flat_map]; unfold sobjs, sV, sC, spart in *; cbn [fst snd tasks user_vars flat_map app] in *;
      fold sobjs sV sC spart in *.
    + destruct Hx as [-> ->]. cbn [ad_objs ad_V ad_C app] in *. destruct (IH Hu' rs Hf) as (I1 & I2 & I3). specialize (Hu u (or_introl eq_refl)).
      split; [|split].
      * intros x d Hin. apply in_app_or in Hin. destruct Hin as [Hin|Hin]; [|now apply I1]. destruct u; cbn in Hin; try contradiction. destruct Hin as [E|[]]. injection E as -> ->. exact Hu.
      * intros p Hin. apply in_app_or in Hin. destruct Hin as [Hin|Hin]; [|now apply I2]. destruct u; cbn in Hin; try contradiction; destruct Hin as [<-|[]]; exact Hu.
      * intros s Hs. destruct (I3 s) as [J1 J2]; [intros x Hx; apply Hs; rewrite names_app, in_app_iff; now right|]. split; [exact J1|].
        rewrite !map_app. f_equal; [|exact J2]. destruct u as [x d| |]; try reflexivity. cbn. f_equal. unfold val, dget_or. rewrite Hs; [reflexivity|]. now left.
    + destruct Hx as (obj & Eo & Hr). inversion Hf as [|t0 r ts rs' [Hsol Hval] Hf' E1 E2]; subst. destruct (IH Hu' rs' Hf') as (I1 & I2 & I3).
      destruct (ready_forced _ _ _ _ _ _ _ _ r a Hr Hsol Hval) as (J1 & J2 & J3). split; [|split].
      * intros x d' Hin. apply in_app_or in Hin. destruct Hin; auto.
      * intros p Hin. apply in_app_or in Hin. destruct Hin; auto.
      * intros s Hs. destruct (I3 s) as [K1 K2]; [intros x Hx; apply Hs; rewrite names_app, in_app_iff; now right|]. split; [|exact K2].
        rewrite mapM_app, Eo, K1. cbn [mapM bind fst]. rewrite (J3 s); [reflexivity|]. intros x Hx. apply Hs. rewrite names_app, in_app_iff. now left.
Qed.
