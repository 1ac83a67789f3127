(** Puzzles with added variables and constraints. *)
From Verif Require Import PuzzleUser SpecPuzzleUser SpecPuzzle SpecSafe SpecSolve ExprFacts ExprProps DictFacts PuzzleFacts PuzzleRel PuzzleUserFacts.
Open Scope list_scope.
Open Scope Z_scope.

Definition uvars (u : ustmt) : dict (list Z) := match u with UVar x d => [(x, d)] | _ => [] end.
Definition ubody (u : ustmt) : list pbody := match u with UVar _ _ => [] | UForm f => [PForm f] | UDiff xs => [PDiff xs] end.

Lemma constrains_bool_int f : constrains f -> bool_int f.
Proof.
  intros Hc n Hb. destruct Hc as [(a & a' & v & v' & Hv & Hv' & Hne)|(Hc & o & g & h & -> & Hs)].
  - exfalso. apply Hne.
    assert (H : forall a v, meaning P0 a f = Some v -> v = n).
    { intros b u Hu. assert (E : oval P0 (map (fun y => (y, b y)) (fvars f)) (OInt n) = Ok u).
      { apply (build_meaning P0 b _ f); auto. intros x Hx. now apply dget_map_fun. }
      cbn in E. congruence. }
    now rewrite (H a v Hv), (H a' v' Hv').
  - split; [exact Hc|]. apply (comparison_of_ints _ n Hc); [|exact Hb]. intros u g' h' c d E Hg Hh. injection E as <- <- <-.
    destruct Hs as [(a & a' & v & v' & Hv & Hv' & Hne)|[(a & a' & v & v' & Hv & Hv' & Hne)|[(k & ->)|(k & ->)]]]; [| |discriminate Hg|discriminate Hh]; apply Hne.
    + now rewrite (build_const P0 g c a v Hg Hv), (build_const P0 g c a' v' Hg Hv').
    + now rewrite (build_const P0 h d a v Hh Hv), (build_const P0 h d a' v' Hh Hv').
Qed.

(** Values within [D] for finitely many names. *)
Lemma pick_values (D : name -> Z -> Prop) : forall xs, (forall x, In x xs -> exists v, D x v) -> exists a : assignment, forall x, In x xs -> D x (a x).
Proof.
  induction xs as [|x xs IH]; intros H; [exists (fun _ => 0); intros x []|].
  destruct IH as (a & Ha); [intros y Hy; apply H; now right|]. destruct (H x (or_introl eq_refl)) as (v & Hv).
  exists (fun y => if String.eqb y x then v else a y). intros y Hy. destruct (String.eqb_spec y x) as [->|Hne]; [exact Hv|].
  destruct Hy as [E|Hy]; [congruence|now apply Ha].
Qed.

Lemma added_names us x : In x (added us) <-> In x (names_of (flat_map uvars us)).
Proof.
  rewrite names_flat. unfold added. rewrite in_flat_map. split; intros (u & Hu & H); exists u; (split; [exact Hu|]); destruct u; try contradiction; cbn in *; intuition.
Qed.

Section User.
Variables (D : name -> Z -> Prop) (compiled : bool) (us : list ustmt) (V : dict (list Z)).
Hypothesis HD : forall x d v, In (x, d) V -> In v d -> D x v.
Hypothesis Hnames : forall x, In x (names_of V) <-> exists v, D x v.
Hypothesis Hus : us_ok D compiled us.

Let D' := and_added D us.

(** A variable known after [us1] has the same values at the end. *)
Lemma known_early us1 us2 x v : us = us1 ++ us2 -> (exists v', and_added D us1 x v') -> D' x v -> and_added D us1 x v.
Proof.
  intros E (v' & Hv') [H|(d & Hin & Hd)]; [now left|]. rewrite E in Hin. apply in_app_or in Hin. destruct Hin as [Hin|Hin]; [right; eauto|].
  exfalso. apply in_split in Hin. destruct Hin as (l1 & l2 & ->). rewrite app_assoc in E.
  destruct (Hus _ _ _ E) as (_ & Hn & _). apply (Hn v'). destruct Hv' as [H|(d' & Hin' & Hd')]; [now left|]. right. exists d'. split; [apply in_or_app; now left|exact Hd'].
Qed.

Lemma early_names us1 x v : and_added D us1 x v -> In x (names_of (V ++ flat_map uvars us1)).
Proof.
  unfold names_of. rewrite map_app, in_app_iff. intros [H|(d & Hin & _)]; [left; apply Hnames; eauto|right].
  change (In x (names_of (flat_map uvars us1))). apply names_flat. exists (UVar x d). split; [exact Hin|now left].
Qed.
Lemma names_early us1 us2 x : us = us1 ++ us2 -> In x (names_of (V ++ flat_map uvars us1)) -> exists v, and_added D us1 x v.
Proof.
  intros E. unfold names_of. rewrite map_app, in_app_iff. intros [H|H].
  - apply Hnames in H. destruct H as (v & Hv). exists v. now left.
  - apply (names_flat uvars us1 x) in H. destruct H as (u & Hin & H). destruct u as [y d| |]; [|contradiction|contradiction].
    destruct H as [<-|[]]. cbn [fst]. pose proof Hin as Hin'. apply in_split in Hin. destruct Hin as (l1 & l2 & ->). rewrite <- app_assoc in E. cbn in E.
    destruct d as [|v d]; [exists 0; right; exists []; auto|]. exists v. right. exists (v :: d). split; [exact Hin'|left; now left].
Qed.

Lemma user_radd us1 u us2 : us = us1 ++ u :: us2 -> radds D' compiled P0 (V ++ flat_map uvars us1) (add_user u) tt (uvars u) (ubody u).
Proof.
  intros E. pose proof (Hus us1 u us2 E) as Hu. destruct u as [x d|f|xs]; cbn [u_ok add_user uvars ubody] in *.
  - destruct Hu as (Hg & Hnew & Hnd). change [(x, d)] with ([(x, d)] ++ @nil (name * list Z)).
    change (@nil pbody) with (@nil pbody ++ []). eapply radds_bind; [|apply radds_ret].
    apply radds_var; [exact Hg| |exact Hnd]. intros Hin. apply (names_early us1 _ x E) in Hin. destruct Hin as (v & Hv). exact (Hnew v Hv).
  - destruct Hu as (Hk & Hd & Hdiv & _ & Hc).
    apply radds_form.
    + now apply constrains_bool_int.
    + intros x Hx. destruct (Hk x Hx) as (v & Hv). exact (early_names us1 x v Hv).
    + destruct (pick_values _ _ Hk) as (a & Ha). exists a. exact (Hd a Ha).
    + intros a Ha. apply Hd. intros x Hx. apply (known_early us1 _ x _ E (Hk x Hx)). exact (Ha x Hx).
    + exact Hdiv.
  - apply radds_diff. intros x Hx. destruct (Hu x Hx) as (v & Hv). exact (early_names us1 x v Hv).
Qed.

Lemma user_radds : radds D' compiled P0 V (op_for add_user us) (map (fun _ => tt) us) (flat_map uvars us) (flat_map ubody us).
Proof. apply radds_for. intros us1 u us2. apply user_radd. Qed.

Lemma user_names u x : In u us -> forall p, In p (ubody u) -> In x (p_names p) -> In x (names_of (V ++ flat_map uvars us)).
Proof.
  intros Hin p Hp Hx. apply in_split in Hin. destruct Hin as (us1 & us2 & E).
  assert (G : In x (names_of (V ++ flat_map uvars us1))).
  { pose proof (Hus us1 u us2 E) as Hu. destruct u as [y d|f|xs]; cbn in *; [contradiction| |]; destruct Hp as [<-|[]].
    - destruct Hu as (Hk & _). destruct (Hk x Hx) as (v & Hv). exact (early_names us1 x v Hv).
    - destruct (Hu x Hx) as (v & Hv). exact (early_names us1 x v Hv). }
  rewrite E. rewrite names_app in *. rewrite in_app_iff in *. destruct G as [G|G]; [now left|right].
  apply names_flat in G. destruct G as (w & Hw & G). apply names_flat. exists w. split; [apply in_or_app; now left|exact G].
Qed.

Lemma user_dom x d v : In (x, d) (V ++ flat_map uvars us) -> In v d -> D' x v.
Proof.
  intros Hin Hv. apply in_app_or in Hin. destruct Hin as [Hin|Hin]; [left; eauto|]. apply in_flat_map in Hin. destruct Hin as (u & Hu & Hin).
  destruct u as [y d'| |]; [|contradiction|contradiction]. destruct Hin as [E|[]]. injection E as -> ->. right. eauto.
Qed.

Lemma user_inhabited x : In x (names_of (V ++ flat_map uvars us)) -> exists v, D' x v.
Proof. apply (names_early us []). now rewrite app_nil_r. Qed.

End User.

(** The decoding of a result and of the values of the added variables. *)
Definition decode_with {A B} (decode : A -> subst -> res B) (xs : list name) (obj : A) (s : subst) : res (B * list Z) :=
  let! b := decode obj s in Ok (b, map (val s) xs).

Lemma mapM_with {A B} (decode : A -> subst -> res B) xs obj ys :
  mapM (decode obj) ys = match mapM (decode_with decode xs obj) ys with Ok l => Ok (map fst l) | Err ex => Err ex end.
Proof.
  induction ys as [|s ys IH]; [reflexivity|]. cbn [mapM]. unfold decode_with at 1. destruct (decode obj s) as [b|ex]; cbn [bind]; [|reflexivity].
  rewrite IH. destruct (mapM (decode_with decode xs obj) ys); reflexivity.
Qed.

Lemma run_with {A B} clk shuffle fuel (decode : A -> subst -> res B) xs sv obj e :
  iterate_run clk shuffle fuel decode sv obj e =
    match iterate_run clk shuffle fuel (decode_with decode xs) sv obj e with Some (l, r, i) => Some (map fst l, r, i) | None => None end.
Proof.
  unfold iterate_run. destruct (solve_all clk shuffle fuel e sv no_args) as [[[ys e'] r]|]; [|reflexivity].
  rewrite (mapM_with decode xs obj ys). destruct (mapM (decode_with decode xs obj) ys); reflexivity.
Qed.

Lemma u_holds_agree a a' u : (forall p x, In p (ubody u) -> In x (p_names p) -> a x = a' x) -> (forall p, In p (ubody u) -> sat P0 a p -> sat P0 a' p).
Proof. intros H p Hp. apply sat_agree. intros x Hx. eapply H; eauto. Qed.

(** What the proofs about a puzzle class establish about additions. *)
Record ready {A B} (init : op A) (obj : A) (V : dict (list Z)) C (decode : A -> subst -> res B)
  (ok : B -> Prop) (means : B -> assignment -> Prop) (D : name -> Z -> Prop) : Prop := Ready {
  y_describes : describes init obj V C decode ok;
  y_closed : forall p x, In p C -> In x (p_names p) -> In x (names_of V);
  y_means : forall s b, good_solution P0 V C s -> decode obj s = Ok b -> means b (val s);
  y_unique : forall b a a', ok b -> means b a -> means b a' -> forall x, In x (names_of V) -> a x = a' x;
  y_dom : forall x d v, In (x, d) V -> In v d -> D x v;
  y_names : forall x, In x (names_of V) <-> exists v, D x v
}.

Definition is_ready {A B} (init : op A) (decode : A -> subst -> res B) (ok : B -> Prop) (means : B -> assignment -> Prop) (D : name -> Z -> Prop) : Prop :=
  exists obj V C, ready init obj V C decode ok means D.

Lemma good_early (V : dict (list Z)) C s us1 :
  good_solution P0 (V ++ flat_map uvars us1) (C ++ flat_map ubody us1) s -> good_solution P0 V C s /\ forall u, In u us1 -> u_holds (val s) u.
Proof.
  intros [Hd Hc]. split; [split; [intros x d Hx; apply Hd; apply in_or_app; now left|intros p Hp; apply Hc; apply in_or_app; now left]|].
  intros u Hin. assert (Hp : forall p, In p (ubody u) -> sat P0 (val s) p) by (intros p Hp; apply Hc, in_or_app; right; apply in_flat_map; eauto).
  destruct u as [x d|f|xs]; cbn [u_holds ubody] in *.
  - apply (Hd x d). apply in_or_app. right. apply in_flat_map. exists (UVar x d). split; [exact Hin|now left].
  - exact (Hp _ (or_introl eq_refl)).
  - exact (Hp _ (or_introl eq_refl)).
Qed.

(** The iteration after the statements [us]. *)
Lemma exactly_at {A B} clk shuffle (init : op A) (obj : A) e (V : dict (list Z)) C (decode : A -> subst -> res B)
  (ok : B -> Prop) (means : B -> assignment -> Prop) us pol t l cmp (D : name -> Z -> Prop) :
  ready init obj V C decode ok means D -> shuffles shuffle -> us_ok D cmp us ->
  rbuilt (and_added D us) cmp P0 (e_world e) (V ++ flat_map uvars us) (C ++ flat_map ubody us) ->
  exactly_firsts (fun fuel => iterate_run clk shuffle fuel decode (new_solver pol t l cmp) obj e) (also_with ok means us) t l.
Proof.
  intros [[H1 H2 H3 H4 H5 H6] Hcl Hm Hu HD Hnames] Hs Hus Hr2.
  exists (fun fuel => iterate_run clk shuffle fuel (decode_with decode (added us)) (new_solver pol t l cmp) obj e).
  split; [|intros fuel; apply run_with].
  set (V' := V ++ flat_map uvars us). set (C' := C ++ flat_map ubody us).
  assert (Hg : forall s, good_solution P0 V' C' s -> good_solution P0 V C s /\ forall u, In u us -> u_holds (val s) u).
  { intros s. apply good_early. }
  apply (riterate_exactly (and_added D us) cmp clk shuffle obj e V' C' (decode_with decode (added us)) pol t l (also_with ok means us)).
  - exact Hr2.
  - intros x d v. apply (user_dom D us V HD).
  - apply (user_inhabited D us V Hnames).
  - unfold V'. destruct V; [contradiction|discriminate].
  - exact Hs.
  - intros Ecmp p Hp. apply in_app_or in Hp. destruct Hp as [Hp|Hp]; [now apply H3|]. apply in_flat_map in Hp. destruct Hp as (u & Hin & Hp).
    apply in_split in Hin. destruct Hin as (us1 & us2 & E). pose proof (Hus _ _ _ E) as Hok. destruct u as [x d|f|xs]; cbn in Hp, Hok; [contradiction| |]; destruct Hp as [<-|[]]; [|exact Logic.I].
    now apply Hok.
  - intros s Hgs. destruct (Hg s Hgs) as [Hs1 Hs2]. destruct (H4 s Hs1) as (b & Hb & Hb'). exists (b, map (val s) (added us)).
    unfold decode_with. rewrite Hb. split; [reflexivity|]. split; [exact Hb'|]. exists (val s). split; [now apply Hm|]. split; [reflexivity|exact Hs2].
  - intros s s' [b zs] Hgs Hgs' Hb Hb' x Hx. unfold decode_with in Hb, Hb'.
    destruct (decode obj s) as [b1|] eqn:Ed; [|discriminate]. destruct (decode obj s') as [b2|] eqn:Ed'; [|discriminate].
    cbn [bind] in Hb, Hb'. injection Hb as -> <-. injection Hb' as -> Ez. unfold V' in Hx. rewrite names_app, in_app_iff in Hx. destruct Hx as [Hx|Hx].
    + apply (H5 s s' b); auto; [apply Hg, Hgs|apply Hg, Hgs'].
    + apply added_names in Hx. clear - Hx Ez. induction (added us) as [|y ys IH]; [contradiction|]. cbn in Ez. injection Ez as Ey Ez. destruct Hx as [<-|Hx]; [congruence|]. apply IH; assumption.
  - intros [b zs] (Hb & a & Ha & Hz & Hua). cbn [fst snd] in *. destruct (H6 b Hb) as (a0 & Hd & Hc & Hdec).
    pose proof (adds_NoDup _ _ _ _ H1) as HND.
    set (s0 := map (fun p : name * list Z => (fst p, a0 (fst p))) V).
    assert (Hn0 : names_of s0 = names_of V) by (unfold s0, names_of; rewrite map_map; reflexivity).
    assert (Hget : forall x, In x (names_of V) -> dget s0 x = Some (a0 x)).
    { intros x Hx. apply dget_NoDup; [now rewrite Hn0|]. unfold names_of in Hx. apply in_map_iff in Hx. destruct Hx as ([y d] & <- & Hin).
      apply in_map_iff. exists (y, d). auto. }
    assert (Hval : forall x, In x (names_of V) -> val s0 x = a0 x).
    { intros x Hx. unfold val, dget_or. now rewrite (Hget x Hx). }
    assert (HinV : forall x d, In (x, d) V -> In x (names_of V)) by (intros x d Hin; apply in_map_iff; exists (x, d); auto).
    assert (Hgs : good_solution P0 V C s0).
    { split.
      - intros y d Hy. pose proof (HinV y d Hy) as Hy'. rewrite (Hget y Hy'), (Hval y Hy'). auto.
      - intros p Hp. apply (sat_agree a0 (val s0)); [|now apply Hc]. intros y Hy. symmetry. apply Hval. eapply Hcl; eauto. }
    assert (Haa : forall x, In x (names_of V) -> a x = a0 x).
    { intros x Hx. rewrite (Hu b a (val s0) Hb Ha (Hm s0 b Hgs (Hdec s0 Hget)) x Hx). now apply Hval. }
    exists a. split; [|split].
    + intros x d Hin. apply in_app_or in Hin. destruct Hin as [Hin|Hin]; [rewrite (Haa x (HinV x d Hin)); now apply Hd|].
      apply in_flat_map in Hin. destruct Hin as (u & Hin & Hx). destruct u as [y d'| |]; [|contradiction|contradiction].
      destruct Hx as [E|[]]. injection E as -> ->. exact (Hua _ Hin).
    + intros p Hp. apply in_app_or in Hp. destruct Hp as [Hp|Hp].
      * apply (sat_agree a0 a); [|now apply Hc]. intros x Hx. symmetry. apply Haa. eapply Hcl; eauto.
      * apply in_flat_map in Hp. destruct Hp as (u & Hin & Hp). specialize (Hua u Hin). destruct u as [y d'|f|xs]; cbn in *; [contradiction| |]; destruct Hp as [<-|[]]; exact Hua.
    + intros s Hsx. unfold decode_with.
      assert (Ed : decode obj s = Ok b).
      { apply Hdec. intros x Hx. rewrite <- (Haa x Hx). apply Hsx. unfold V'. rewrite names_app, in_app_iff. now left. }
      rewrite Ed. cbn [bind]. do 2 f_equal. rewrite <- Hz. apply map_ext_in. intros x Hx. unfold val, dget_or. rewrite Hsx; [reflexivity|].
      unfold V'. rewrite names_app, in_app_iff. right. now apply added_names.
Qed.

Lemma ready_start {A B} (init : op A) obj V C (decode : A -> subst -> res B) ok means D us cmp : ready init obj V C decode ok means D ->
  exists w, init init_world = (w, Ok obj) /\ rbuilt (and_added D us) cmp P0 w V C.
Proof.
  intros [[H1 _ _ _ _ _] Hcl _ _ _ _]. destruct (adds_built _ _ _ _ _ _ H1 init_world [] built_init) as (w1 & E1 & Hb1). cbn [app] in Hb1.
  exists w1. split; [exact E1|]. now apply rbuilt_of.
Qed.

Lemma user_exactly {A B} clk shuffle (init : op A) (decode : A -> subst -> res B)
  (ok : B -> Prop) (means : B -> assignment -> Prop) us pol t l cmp (D : name -> Z -> Prop) :
  is_ready init decode ok means D -> shuffles shuffle -> us_ok D cmp us ->
  exactly_firsts (fun fuel => puzzle_run clk shuffle fuel (with_user init us) decode (new_solver pol t l cmp)) (also_with ok means us) t l.
Proof.
  intros (obj & V & C & Hy) Hs Hus. destruct (ready_start init obj V C decode ok means D us cmp Hy) as (w1 & E1 & Hr1).
  destruct (user_radds D cmp us V (y_names _ _ _ _ _ _ _ _ Hy) Hus w1 C Hr1) as (w2 & E2 & Hr2).
  assert (Ec : construct (with_user init us) = Ok (obj, new_env w2)).
  { unfold construct, with_user, op_bind. rewrite E1, E2. reflexivity. }
  destruct (exactly_at clk shuffle init obj (new_env w2) V C decode ok means us pol t l cmp D Hy Hs Hus Hr2) as (run' & G1 & G2).
  exists run'. split; [exact G1|]. intros fuel. rewrite <- G2. unfold puzzle_run. rewrite Ec. reflexivity.
Qed.

(** Without added variables. *)
Lemma firsts_plain {B} run (ok : B -> Prop) values us t l : added us = [] ->
  exactly_firsts run (also_with ok values us) t l -> exactly run (also ok values us) t l.
Proof.
  intros E (run' & [(fuel & [[bs r] i] & Hf) Hrun] & Heq).
  assert (Hok : forall b zs, also_with ok values us (b, zs) <-> also ok values us b /\ zs = []).
  { intros b zs. unfold also_with, also. rewrite E. cbn [fst snd map]. split; [intros (H1 & a & H2 & <- & H3); eauto|].
    intros [(H1 & a & H2 & H3) ->]. eauto. }
  split.
  - exists fuel. rewrite Heq, Hf. eauto.
  - clear fuel bs r i Hf. intros fuel bs r i H. rewrite Heq in H. destruct (run' fuel) as [[[ps r'] i']|] eqn:Er; [|discriminate]. injection H as <- <- <-.
    destruct (Hrun _ _ _ _ Er) as (G1 & G2 & G3 & G4 & G5 & G6 & G7). rewrite map_length.
    split; [exact G1|]. split; [|split; [|split; [|split; [exact G5|split; [exact G6|exact G7]]]]].
    + intros b Hb. apply in_map_iff in Hb. destruct Hb as ([b' zs] & <- & Hin). apply (Hok b' zs). now apply G2.
    + assert (Hz : forall p, In p ps -> snd p = []) by (intros [b zs] Hin; apply (Hok b zs); now apply G2).
      clear - G3 Hz. induction G3 as [|[b zs] ps Hn Hnd IH]; [constructor|]. cbn [map fst]. constructor; [|apply IH; intros p Hp; apply Hz; now right].
      intros Hin. apply in_map_iff in Hin. destruct Hin as ([b' zs'] & Eb & Hin). cbn in Eb. subst b'. apply Hn.
      pose proof (Hz _ (or_introl eq_refl)) as Z1. pose proof (Hz _ (or_intror Hin)) as Z2. cbn in Z1, Z2. now subst.
    + intros Hi b Hb. apply in_map_iff. exists (b, []). split; [reflexivity|]. apply G4; [exact Hi|]. now apply Hok.
Qed.

Lemma us_ok_nth D compiled us :
  (forall k, (k < length us)%nat -> u_ok (and_added D (firstn k us)) compiled (nth k us (UDiff []))) -> us_ok D compiled us.
Proof.
  intros H us1 u us2 E. specialize (H (length us1)). rewrite E, app_length in H. cbn [length] in H.
  rewrite firstn_app, Nat.sub_diag, firstn_all, firstn_O, app_nil_r, app_nth2, Nat.sub_diag in H by lia. apply H. lia.
Qed.
