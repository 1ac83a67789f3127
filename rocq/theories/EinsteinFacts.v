(** Facts about the model of EinsteinRiddleSolver. *)
From Verif Require Import Einstein SpecPuzzle SpecEinstein SpecSafe SpecSolve NameFacts DictFacts ExprFacts PuzzleFacts PuzzleUserFacts.
From Coq Require Import Lia.
Open Scope list_scope.
Open Scope Z_scope.

Local Definition P0 : nat -> Z := fun _ => 0.

(** ** The declarations *)
Definition kdict (k : string) (vs : list string) : dict name := map (fun v => (v, mkname k v)) vs.
Definition kvars (k : string) (vs : list string) : dict (list Z) := map (fun v => (mkname k v, indices)) vs.

Lemma notin_memb x l : memb x l = false -> ~ In x l.
Proof. intros H Hin. apply memb_In in Hin. congruence. Qed.

Fixpoint has_dup_s (l : list string) : bool := match l with [] => false | x :: l' => memb x l' || has_dup_s l' end.
Lemma has_dup_s_NoDup l : has_dup_s l = false -> NoDup l.
Proof.
  induction l as [|x l IH]; cbn; intros H; constructor; apply Bool.orb_false_iff in H; [now apply notin_memb|now apply IH].
Qed.
Lemma flat_single {A B} (f : A -> B) l : flat_map (fun v => [f v] ++ []) l = map f l.
Proof. induction l as [|v l IH]; cbn; [reflexivity|now rewrite <- IH]. Qed.
Lemma flat_none {A B} (l : list A) : flat_map (fun _ => @nil B ++ []) l = [].
Proof. induction l; auto. Qed.
Lemma kind_adds k : forall vs ctx, forallb (fun v => good_name (mkname k v)) vs = true ->
  NoDup (map (mkname k) vs) -> (forall v, In v vs -> ~ In (mkname k v) (names_of ctx)) ->
  adds P0 ctx (kind_variables k vs) (kdict k vs) (kvars k vs) [].
Proof.
  intros vs ctx Hg Hnd Hctx. unfold kind_variables, kdict, kvars.
  replace (map (fun v => (mkname k v, indices)) vs) with (flat_map (fun v => [(mkname k v, indices)] ++ @nil (name * list Z)) vs) by apply flat_single.
  replace (@nil pbody) with (flat_map (fun _ : string => @nil pbody ++ []) vs) by apply flat_none.
  apply (adds_for P0 _ (fun v => (v, mkname k v))). intros l1 v l2 E. rewrite forallb_forall in Hg. rewrite E in *.
  apply (adds_bind P0 _ _ _ (mkname k v)); [|apply adds_ret].
  apply adds_intvar; [apply Hg, in_or_app; right; now left| |apply zrange_NoDup].
  rewrite names_app, in_app_iff. intros [H|H]; [apply (Hctx v); [apply in_or_app; right; now left|exact H]|].
  rewrite map_app in Hnd. cbn in Hnd. apply NoDup_remove_2 in Hnd. apply Hnd. apply in_or_app. left.
  apply names_flat in H. destruct H as (v' & Hv' & [H|[]]). cbn in H. rewrite <- H. now apply in_map.
Qed.

Lemma adds_item ctx (d : dict name) k x : dget d k = Some x -> adds P0 ctx (op_item d k) x [] [].
Proof. intros E. unfold op_item. rewrite E. apply adds_ret. Qed.

Definition eq_form (x y : name) : pbody := PForm (FBin UEq (FVar x) (FVar y)).
Definition adj_form (x y z : name) : pbody := PForm (FBin UEq (FBin USub (FVar x) (FVar y)) (FVar z)).

Lemma equal_adds ctx d d' k k' x y : dget d k = Some x -> dget d' k' = Some y -> memb x (names_of ctx) = true -> memb y (names_of ctx) = true ->
  adds P0 ctx (equal d d' k k') tt [] [eq_form x y].
Proof.
  intros E E' Hx Hy. unfold equal. apply (adds_bind P0 ctx _ _ x tt [] [] [] [eq_form x y]); [now apply adds_item|]. rewrite app_nil_r.
  apply (adds_bind P0 ctx _ _ y tt [] [] [] [eq_form x y]); [now apply adds_item|]. rewrite app_nil_r.
  apply adds_form; [apply not_consts_l| |intros a; cbn; eexists; reflexivity|reflexivity|reflexivity].
  intros u [<-|[<-|[]]]; now apply memb_In.
Qed.

Lemma adjacent_adds ctx d d' k k' x y z : dget d k = Some x -> dget d' k' = Some y -> memb x (names_of ctx) = true -> memb y (names_of ctx) = true ->
  good_name z = true -> memb z (names_of ctx) = false ->
  adds P0 ctx (adjacent z d d' k k') tt [(z, [-1; 1])] [adj_form x y z].
Proof.
  intros E E' Hx Hy Hg Hz. unfold adjacent.
  apply (adds_bind P0 ctx _ _ z tt [(z, [-1; 1])] [] [] [adj_form x y z]); [apply adds_intvar; [exact Hg|now apply notin_memb|]|].
  { repeat constructor; cbn; intuition discriminate. }
  set (ctx' := ctx ++ [(z, [-1; 1])]).
  apply (adds_bind P0 ctx' _ _ x tt [] [] [] [adj_form x y z]); [now apply adds_item|]. rewrite app_nil_r.
  apply (adds_bind P0 ctx' _ _ y tt [] [] [] [adj_form x y z]); [now apply adds_item|]. rewrite app_nil_r.
  apply adds_form; [apply not_consts_r| |intros a; cbn; eexists; reflexivity|reflexivity|reflexivity].
  assert (Hc : forall u, In u (names_of ctx) \/ u = z -> In u (names_of ctx')).
  { intros u Hu. unfold ctx'. rewrite names_app, in_app_iff. destruct Hu as [Hu| ->]; [now left|right; now left]. }
  intros u [<-|[<-|[<-|[]]]]; apply Hc; [left; now apply memb_In|left; now apply memb_In|now right].
Qed.

Lemma form_adds ctx f : not_consts f -> forallb (fun x => memb x (names_of ctx)) (fvars f) = true -> (forall a, exists v, meaning P0 a f = Some v) ->
  div_ok f = true -> is_comparison f = true -> adds P0 ctx (add_formula f) tt [] [PForm f].
Proof. intros H1 H2. apply adds_form; [exact H1|]. rewrite forallb_forall in H2. intros x Hx. apply memb_In. now apply H2. Qed.

Definition K (k v : string) : name := mkname k v.
Definition VK : dict (list Z) :=
  kvars "owner" l_owner ++ kvars "color" l_color ++ kvars "drink" l_drink ++ kvars "smoke" l_smoke ++ kvars "animal" l_animal.
Definition pm : list name := ["Blend_cats"; "Dunhill_horse"; "Norwegian_blue"; "water_Blend"]%string.
Definition VE : dict (list Z) := VK ++ map (fun x => (x, [-1; 1])) pm.
Open Scope string_scope.
Definition CS : list pbody :=
  [eq_form (K "owner" "English") (K "color" "red");
   eq_form (K "owner" "Swede") (K "animal" "a dog");
   eq_form (K "owner" "Dane") (K "drink" "tea");
   PForm (FBin UEq (FVar (K "color" "green")) (FBin USub (FVar (K "color" "white")) (FInt 1)));
   eq_form (K "color" "green") (K "drink" "coffee");
   eq_form (K "smoke" "Pall Mall") (K "animal" "birds");
   eq_form (K "color" "yellow") (K "smoke" "Dunhill");
   PForm (FBin UEq (FVar (K "drink" "milk")) (FInt 3));
   PForm (FBin UEq (FVar (K "owner" "Norwegian")) (FInt 1));
   adj_form (K "smoke" "Blend") (K "animal" "cats") "Blend_cats";
   adj_form (K "smoke" "Dunhill") (K "animal" "a horse") "Dunhill_horse";
   eq_form (K "smoke" "Blue Master") (K "drink" "beer");
   eq_form (K "owner" "German") (K "smoke" "Prince");
   adj_form (K "owner" "Norwegian") (K "color" "blue") "Norwegian_blue";
   adj_form (K "drink" "water") (K "smoke" "Blend") "water_Blend"].
Close Scope string_scope.
Definition CD : list pbody := map (fun kv : string * list string => PDiff (map (mkname (fst kv)) (snd kv))) attributes.
Definition CE : list pbody := CD ++ CS.
Definition variables_ : list (string * dict name) := map (fun kv : string * list string => (fst kv, kdict (fst kv) (snd kv))) attributes.

Ltac item := eapply adds_bind; [apply adds_item; reflexivity|].
Ltac form := eapply adds_bind; [apply form_adds; [first [apply not_consts_l|apply not_consts_r|apply not_consts_int]|vm_compute; reflexivity|intros a; cbn; eexists; reflexivity|reflexivity|reflexivity]|].
Ltac equal_ := eapply adds_bind; [eapply equal_adds; [reflexivity|reflexivity|vm_compute; reflexivity|vm_compute; reflexivity]|].
Ltac adjacent_ := eapply adjacent_adds; [reflexivity|reflexivity|vm_compute; reflexivity|vm_compute; reflexivity|vm_compute; reflexivity|vm_compute; reflexivity].

Lemma statements_adds : adds P0 VK (einstein_statements (kdict "owner" l_owner) (kdict "color" l_color) (kdict "drink" l_drink) (kdict "smoke" l_smoke) (kdict "animal" l_animal))
  tt (map (fun x => (x, [-1; 1])) pm) CS.
Proof.
  eapply adds_ext; [|intros w; reflexivity| |].
  1: unfold einstein_statements.
  1: do 3 equal_. do 2 item. form. do 3 equal_. item. form. item. form.
  eapply adds_bind; [adjacent_|]. eapply adds_bind; [adjacent_|]. do 2 equal_. eapply adds_bind; [adjacent_|]. adjacent_.
  all: reflexivity.
Qed.

Lemma einstein_adds : adds P0 [] einstein_init variables_ VE CE.
Proof.
  unfold einstein_init.
  assert (Hk : forall k vs ctx, forallb (fun v => good_name (mkname k v)) vs = true -> has_dup_s (map (mkname k) vs) = false ->
    forallb (fun v => negb (memb (mkname k v) (names_of ctx))) vs = true -> adds P0 ctx (kind_variables k vs) (kdict k vs) (kvars k vs) []).
  { intros k vs ctx H1 H2 H3. apply kind_adds; [exact H1|now apply has_dup_s_NoDup|]. rewrite forallb_forall in H3. intros v Hv. apply notin_memb.
    specialize (H3 v Hv). now destruct (memb (mkname k v) (names_of ctx)). }
  eapply adds_ext; [|intros w; reflexivity| |].
  - do 5 (eapply adds_bind; [apply Hk; vm_compute; reflexivity|]).
    do 5 (eapply adds_bind; [apply adds_diff; apply (proj1 (Forall_forall _ _)); vm_compute; repeat (constructor; [tauto|]); constructor|]).
    eapply adds_bind; [|apply adds_ret]. exact statements_adds.
  - reflexivity.
  - reflexivity.
Qed.

(** ** Decoding *)
Definition find_row (k : string) (h : string -> Z) (vs : list string) (i : Z) : dict string :=
  match find (fun v => h v =? i) vs with Some v => [(k, v)] | None => [] end.

Lemma find_none_row k h vs i : (forall v, In v vs -> h v <> i) -> find_row k h vs i = [].
Proof.
  intros H. unfold find_row. destruct (find _ vs) as [v|] eqn:E; [|reflexivity]. apply find_some in E. destruct E as [Hv E]. apply Z.eqb_eq in E. now apply H in Hv.
Qed.
Lemma find_some_row k h vs i v : In v vs -> h v = i -> (forall v', In v' vs -> h v' = i -> v' = v) -> find_row k h vs i = [(k, v)].
Proof.
  intros Hv E Hu. unfold find_row. destruct (find _ vs) as [w|] eqn:F.
  - apply find_some in F. destruct F as [Hw F]. apply Z.eqb_eq in F. now rewrite (Hu w Hw F).
  - pose proof (find_none _ _ F v Hv) as N. cbn in N. rewrite E, Z.eqb_refl in N. discriminate.
Qed.
Lemma find_row_In k h vs i k' v : In (k', v) (find_row k h vs i) -> k' = k /\ In v vs /\ h v = i.
Proof.
  unfold find_row. destruct (find _ vs) as [w|] eqn:F; [|contradiction]. apply find_some in F. destruct F as [Hw F]. apply Z.eqb_eq in F.
  intros [E|[]]. injection E as <- <-. auto.
Qed.

Lemma set_values_spec s k : forall vs R,
  let h := fun v => val s (mkname k v) in
  (forall v, In v vs -> dget s (mkname k v) = Some (h v) /\ In (h v) indices) ->
  NoDup vs -> (forall v v', In v vs -> In v' vs -> v <> v' -> h v <> h v') ->
  (forall v, In v vs -> ~ In k (dkeys (R (h v)))) ->
  set_values s k (kdict k vs) (map (fun i => (i, R i)) indices) = Ok (map (fun i => (i, R i ++ find_row k h vs i)) indices).
Proof.
  induction vs as [|v vs IH]; intros R h Hd Hnd Hinj Hk.
  - cbn [set_values kdict map]. f_equal. apply map_ext. intros i. now rewrite app_nil_r.
  - cbn [kdict map set_values]. fold (kdict k vs). destruct (Hd v (or_introl eq_refl)) as [E Hi]. unfold get_item. rewrite E. cbn [bind].
    unfold house_set.
    assert (Hex : existsb (fun p => h v =? fst p) (map (fun i => (i, R i)) indices) = true).
    { apply existsb_exists. exists (h v, R (h v)). split; [apply in_map_iff; eauto|apply Z.eqb_refl]. }
    rewrite Hex. cbn [bind]. rewrite map_map. cbn [fst snd].
    set (R' := fun i => if h v =? i then dset (R i) k v else R i).
    replace (map (fun x => if h v =? x then (x, dset (R x) k v) else (x, R x)) indices) with (map (fun i => (i, R' i)) indices)
      by (apply map_ext; intros i; unfold R'; now destruct (h v =? i)).
    inversion Hnd as [|? ? Hv Hnd']; subst.
    assert (Hne : forall v', In v' vs -> h v <> h v') by (intros v' Hv'; apply Hinj; [now left|now right|intros ->; contradiction]).
    specialize (IH R'). cbv zeta in IH. rewrite IH; clear IH.
    + f_equal. apply map_ext. intros i. f_equal. unfold R', find_row at 2. cbn [find]. change (val s (mkname k v)) with (h v).
      destruct (Z.eqb_spec (h v) i) as [<-|Hvi].
      * change (fun v0 => val s (mkname k v0)) with h. rewrite (find_none_row k h vs (h v)), app_nil_r by (intros v' Hv' C; now apply (Hne v' Hv')).
        rewrite dset_new by (apply Hk; now left). reflexivity.
      * reflexivity.
    + intros v' Hv'. apply Hd. now right.
    + exact Hnd'.
    + intros a b Ha Hb. apply Hinj; now right.
    + intros v' Hv'. unfold R'. change (val s (mkname k v')) with (h v'). destruct (Z.eqb_spec (h v) (h v')) as [C|_]; [now apply Hne in C|]. apply Hk. now right.
Qed.

Definition rows (h : string -> string -> Z) (kvs : list (string * list string)) (i : Z) : dict string :=
  flat_map (fun kv => find_row (fst kv) (h (fst kv)) (snd kv) i) kvs.
Definition zsol (h : string -> string -> Z) : list (Z * dict string) := map (fun i => (i, rows h attributes i)) indices.

Definition hval (s : subst) (k v : string) : Z := val s (mkname k v).
Lemma set_kinds_spec s : forall kvs R,
  NoDup (map fst kvs) ->
  (forall k vs, In (k, vs) kvs -> NoDup vs /\ (forall v, In v vs -> dget s (mkname k v) = Some (hval s k v) /\ In (hval s k v) indices) /\
     (forall v v', In v vs -> In v' vs -> v <> v' -> hval s k v <> hval s k v') /\ forall i, ~ In k (dkeys (R i))) ->
  set_kinds s (map (fun kv : string * list string => (fst kv, kdict (fst kv) (snd kv))) kvs) (map (fun i => (i, R i)) indices) =
    Ok (map (fun i => (i, R i ++ rows (hval s) kvs i)) indices).
Proof.
  induction kvs as [|[k vs] kvs IH]; intros R Hnd H.
  - cbn [map set_kinds]. apply f_equal, map_ext. intros i. now rewrite app_nil_r.
  - cbn [map set_kinds fst snd]. destruct (H k vs (or_introl eq_refl)) as (H1 & H2 & H3 & H4).
    rewrite (set_values_spec s k vs R H2 H1 H3) by (intros v _; apply H4). cbn [bind]. inversion Hnd as [|? ? Hk Hnd']; subst.
    eapply eq_trans; [apply (IH (fun i => R i ++ find_row k (fun v => val s (mkname k v)) vs i))|].
    + exact Hnd'.
    + intros k' vs' Hin. destruct (H k' vs' (or_intror Hin)) as (G1 & G2 & G3 & G4). split; [exact G1|]. split; [exact G2|]. split; [exact G3|].
      intros i. unfold dkeys. rewrite map_app, in_app_iff. intros [C|C]; [exact (G4 i C)|]. apply in_map_iff in C. destruct C as ([k0 v0] & E & C).
      cbn in E. subst k0. apply find_row_In in C. destruct C as [-> _]. apply Hk. apply in_map_iff. exists (k, vs'). auto.
    + apply f_equal, map_ext. intros i. f_equal. unfold rows. cbn [flat_map fst snd]. now rewrite <- app_assoc.
Qed.

(** ** Arrangements *)
Lemma attributes_facts : NoDup (map fst attributes) /\ forall k vs, In (k, vs) attributes -> NoDup vs /\ length vs = 5%nat.
Proof.
  split; [apply has_dup_s_NoDup; reflexivity|]. intros k vs H.
  assert (A : forallb (fun kv : string * list string => negb (has_dup_s (snd kv)) && Nat.eqb (length (snd kv)) 5) attributes = true) by (vm_compute; reflexivity).
  rewrite forallb_forall in A. specialize (A _ H). cbn [snd] in A. apply Bool.andb_true_iff in A. destruct A as [A1 A2].
  split; [apply has_dup_s_NoDup; now destruct (has_dup_s vs)|now apply Nat.eqb_eq].
Qed.
Lemma attributes_fun k vs vs' : In (k, vs) attributes -> In (k, vs') attributes -> vs = vs'.
Proof.
  intros H H'. assert (E : dget attributes k = Some vs) by (apply dget_NoDup; [apply attributes_facts|exact H]).
  assert (E' : dget attributes k = Some vs') by (apply dget_NoDup; [apply attributes_facts|exact H']). congruence.
Qed.

Section h.
Variable h : string -> string -> Z.
Hypothesis Hp : placement h.

Lemma in_indices i : In i indices <-> 1 <= i <= 5.
Proof. unfold indices. rewrite zrange_In. lia. Qed.
Lemma house_of k vs i : In (k, vs) attributes -> In i indices -> exists v, In v vs /\ h k v = i.
Proof.
  intros Hk Hi. destruct (proj2 attributes_facts k vs Hk) as [Hnd Hl]. destruct (Hp k vs Hk) as [H1 H2].
  assert (Hn : NoDup (map (h k) vs)).
  { clear Hl. induction Hnd as [|v vs' Hv Hnd IH]; cbn; constructor.
    - intros C. apply in_map_iff in C. destruct C as (v' & E & Hv'). revert E. apply H2; [now right|now left|intros ->; contradiction].
    - assert (forall v0, In v0 vs' -> In v0 (v :: vs')) by (intros; now right).
      clear - H1 H2 IH H Hnd. assert (G : forall l, (forall x, In x l -> In x (v :: vs')) -> NoDup l -> NoDup (map (h k) l)).
      { induction l as [|x l IHl]; intros Hin Hl; cbn; [constructor|]. inversion Hl; subst. constructor.
        - intros C. apply in_map_iff in C. destruct C as (y & E & Hy). revert E. apply H2; [apply Hin; now right|apply Hin; now left|intros ->; contradiction].
        - apply IHl; [intros y Hy; apply Hin; now right|assumption]. }
      apply G; assumption. }
  assert (Hin : incl indices (map (h k) vs)).
  { apply NoDup_length_incl; [exact Hn|rewrite map_length, Hl; change (length indices) with 5%nat; lia|]. intros x Hx. apply in_map_iff in Hx. destruct Hx as (v & <- & Hv). apply in_indices. now apply H1. }
  specialize (Hin i Hi). apply in_map_iff in Hin. destruct Hin as (v & E & Hv). eauto.
Qed.
Lemma row_of k vs i v : In (k, vs) attributes -> In v vs -> h k v = i -> find_row k (h k) vs i = [(k, v)].
Proof.
  intros Hk Hv E. apply find_some_row; [exact Hv|exact E|]. intros v' Hv' E'. destruct (Hp k vs Hk) as [_ H2].
  destruct (String.eqb_spec v' v) as [C|C]; [exact C|]. exfalso. apply (H2 v' v Hv' Hv C). congruence.
Qed.

Lemma arrangement_iff z : arrangement h z <-> z = zsol h.
Proof.
  split.
  - intros [Hz Hr]. change [1; 2; 3; 4; 5] with indices in Hz. unfold zsol.
    assert (G : forall z' is, map fst z' = is -> (forall x, In x z' -> In x z) -> z' = map (fun i => (i, rows h attributes i)) is).
    { induction z' as [|[i row] z' IH]; intros is <- Hin; [reflexivity|]. cbn [map fst]. apply f_equal2; [|apply IH; [reflexivity|intros x Hx; apply Hin; now right]].
      apply f_equal. destruct (Hr i row (Hin _ (or_introl eq_refl))) as [Hk Hv]. clear IH Hin.
      assert (G : forall kvs row', map fst row' = map fst kvs -> incl kvs attributes -> (forall x, In x row' -> In x row) -> row' = rows h kvs i).
      { induction kvs as [|[k vs] kvs IH]; intros [|[k' v] row'] E Hi Hin; try discriminate; [reflexivity|]. cbn in E. injection E as -> E.
        unfold rows. cbn [flat_map fst snd]. destruct (Hv k v (Hin _ (or_introl eq_refl))) as [(vs' & Hvs & Hv') Eh].
        assert (vs' = vs) by (apply (attributes_fun k); [exact Hvs|apply Hi; now left]). subst vs'.
        rewrite (row_of k vs i v) by (auto). cbn. f_equal. apply IH; [exact E|intros x Hx; apply Hi; now right|intros x Hx; apply Hin; now right]. }
      apply G; [exact Hk|intros x Hx; exact Hx|auto]. }
    apply G; auto.
  - intros ->. split; [reflexivity|]. intros i row Hin. unfold zsol in Hin. apply in_map_iff in Hin. destruct Hin as (i' & E & Hi). apply pair_equal_spec in E. destruct E as [-> <-]. split.
    + assert (G : forall kvs, incl kvs attributes -> map fst (rows h kvs i) = map fst kvs); [|apply G; intros x Hx; exact Hx].
      induction kvs as [|[k vs] kvs IH]; intros Hk; [reflexivity|]. unfold rows. cbn [flat_map fst snd map].
      destruct (house_of k vs i) as (v & Hv & E); [apply Hk; now left|exact Hi|]. rewrite (row_of k vs i v); [|apply Hk; now left|exact Hv|exact E].
      cbn. f_equal. apply IH. intros x Hx. apply Hk. now right.
    + intros k v Hkv. unfold rows in Hkv. apply in_flat_map in Hkv. destruct Hkv as ([k' vs] & Hk & Hkv). cbn [fst snd] in Hkv.
      apply find_row_In in Hkv. destruct Hkv as (-> & Hv & E). split; [exists vs; auto|exact E].
Qed.
Lemma zsol_at k vs v : In (k, vs) attributes -> In v vs -> In (k, v) (rows h attributes (h k v)).
Proof.
  intros Hk Hv. unfold rows. apply in_flat_map. exists (k, vs). split; [exact Hk|]. cbn [fst snd]. rewrite (row_of k vs (h k v) v); auto. now left.
Qed.
End h.

Lemma zsol_inj h h' : placement h -> placement h' -> zsol h = zsol h' -> forall k vs v, In (k, vs) attributes -> In v vs -> h k v = h' k v.
Proof.
  intros Hp Hp' E k vs v Hk Hv. set (i := h k v). assert (Hi : In i indices) by (apply in_indices; now apply (Hp k vs)).
  assert (Hin : In (i, rows h attributes i) (zsol h')) by (rewrite <- E; unfold zsol; apply in_map_iff; eauto).
  unfold zsol in Hin. apply in_map_iff in Hin. destruct Hin as (j & Ej & _). apply pair_equal_spec in Ej. destruct Ej as [Ei Er]. subst j.
  pose proof (zsol_at h Hp k vs v Hk Hv) as H. fold i in H. rewrite <- Er in H. unfold rows in H. apply in_flat_map in H.
  destruct H as ([k' vs'] & Hk' & H). cbn [fst snd] in H. apply find_row_In in H. destruct H as (-> & _ & H). symmetry. exact H.
Qed.

(** ** The constraints *)
Open Scope string_scope.
Definition facts (a : assignment) : Prop :=
  a (K "owner" "English") = a (K "color" "red") /\
  a (K "owner" "Swede") = a (K "animal" "a dog") /\
  a (K "owner" "Dane") = a (K "drink" "tea") /\
  a (K "color" "green") + 1 = a (K "color" "white") /\
  a (K "color" "green") = a (K "drink" "coffee") /\
  a (K "smoke" "Pall Mall") = a (K "animal" "birds") /\
  a (K "color" "yellow") = a (K "smoke" "Dunhill") /\
  a (K "drink" "milk") = 3 /\
  a (K "owner" "Norwegian") = 1 /\
  a (K "smoke" "Blend") - a (K "animal" "cats") = a "Blend_cats" /\
  a (K "smoke" "Dunhill") - a (K "animal" "a horse") = a "Dunhill_horse" /\
  a (K "smoke" "Blue Master") = a (K "drink" "beer") /\
  a (K "owner" "German") = a (K "smoke" "Prince") /\
  a (K "owner" "Norwegian") - a (K "color" "blue") = a "Norwegian_blue" /\
  a (K "drink" "water") - a (K "smoke" "Blend") = a "water_Blend".
Close Scope string_scope.

Lemma sat_eq a f g u v : meaning P0 a f = Some u -> meaning P0 a g = Some v -> (sat P0 a (PForm (FBin UEq f g)) <-> u = v).
Proof.
  intros E E'. cbn [sat meaning]. rewrite E, E'. cbn. destruct (Z.eqb_spec u v) as [H|H]; split; intros G; auto; try contradiction.
  - exists 1. split; [reflexivity|lia].
  - destruct G as (w & F & Hw). injection F as <-. contradiction.
Qed.
Lemma sat_CS a : (forall p, In p CS -> sat P0 a p) <-> facts a.
Proof.
  assert (E : forall x y, sat P0 a (eq_form x y) <-> a x = a y) by (intros x y; now apply sat_eq).
  assert (A : forall x y z, sat P0 a (adj_form x y z) <-> a x - a y = a z) by (intros x y z; now apply sat_eq).
  assert (N : forall x n, sat P0 a (PForm (FBin UEq (FVar x) (FInt n))) <-> a x = n) by (intros x n; now apply sat_eq).
  assert (L : forall x y, sat P0 a (PForm (FBin UEq (FVar x) (FBin USub (FVar y) (FInt 1)))) <-> a x + 1 = a y).
  { intros x y. rewrite (sat_eq a _ _ (a x) (a y - 1)); [lia|reflexivity|reflexivity]. }
  transitivity (Forall (sat P0 a) CS); [symmetry; apply Forall_forall|]. unfold CS, facts.
  rewrite !Forall_cons_iff, !E, !A, !N, !L.
  assert (T : Forall (sat P0 a) [] <-> True) by (split; [tauto|constructor]). rewrite T. tauto.
Qed.

Lemma mkname_inj k vs v v' : In (k, vs) attributes -> In v vs -> In v' vs -> mkname k v = mkname k v' -> v = v'.
Proof.
  intros Hk Hv Hv' E.
  assert (A : forallb (fun kv : string * list string => forallb (fun v => forallb (fun v' => implb (String.eqb (mkname (fst kv) v) (mkname (fst kv) v')) (String.eqb v v')) (snd kv)) (snd kv)) attributes = true) by (vm_compute; reflexivity).
  rewrite forallb_forall in A. specialize (A _ Hk). cbn [fst snd] in A. rewrite forallb_forall in A. specialize (A _ Hv). rewrite forallb_forall in A. specialize (A _ Hv').
  rewrite E, String.eqb_refl in A. cbn in A. now apply String.eqb_eq.
Qed.
Lemma sat_CD a : (forall p, In p CD -> sat P0 a p) <->
  forall k vs v v', In (k, vs) attributes -> In v vs -> In v' vs -> v <> v' -> a (mkname k v) <> a (mkname k v').
Proof.
  split.
  - intros H k vs v v' Hk Hv Hv' Hne. assert (Hs : sat P0 a (PDiff (map (mkname k) vs))) by (apply H; unfold CD; apply in_map_iff; exists (k, vs); auto).
    apply Hs; [now apply in_map|now apply in_map|]. intros E. apply Hne. now apply (mkname_inj k vs).
  - intros H p Hp. unfold CD in Hp. apply in_map_iff in Hp. destruct Hp as ([k vs] & <- & Hk). intros x y Hx Hy Hne. cbn [fst snd] in *.
    apply in_map_iff in Hx, Hy. destruct Hx as (v & <- & Hv), Hy as (v' & <- & Hv'). apply (H k vs v v' Hk Hv Hv'). congruence.
Qed.

Lemma VE_var k vs v : In (k, vs) attributes -> In v vs -> In (mkname k v, indices) VE.
Proof.
  intros Hk Hv. unfold VE. apply in_or_app. left. assert (E : VK = flat_map (fun kv : string * list string => kvars (fst kv) (snd kv)) attributes) by reflexivity.
  rewrite E. apply in_flat_map. exists (k, vs). split; [exact Hk|]. unfold kvars. cbn [fst snd]. apply in_map_iff. eauto.
Qed.
Lemma VE_pm x : In x pm -> In (x, [-1; 1]) VE.
Proof. intros H. unfold VE. apply in_or_app. right. apply in_map_iff. eauto. Qed.
Lemma VE_cases x d : In (x, d) VE -> (exists k vs v, In (k, vs) attributes /\ In v vs /\ x = mkname k v /\ d = indices) \/ (In x pm /\ d = [-1; 1]).
Proof.
  intros H. unfold VE in H. apply in_app_or in H. destruct H as [H|H].
  - left. assert (E : VK = flat_map (fun kv : string * list string => kvars (fst kv) (snd kv)) attributes) by reflexivity. rewrite E in H.
    apply in_flat_map in H. destruct H as ([k vs] & Hk & H). unfold kvars in H. cbn [fst snd] in H. apply in_map_iff in H. destruct H as (v & F & Hv).
    apply pair_equal_spec in F. destruct F as [<- <-]. exists k, vs, v. auto.
  - right. apply in_map_iff in H. destruct H as (y & F & Hy). apply pair_equal_spec in F. destruct F as [<- <-]. auto.
Qed.

Lemma pm_values z : In z [-1; 1] <-> z = -1 \/ z = 1.
Proof. cbn. split; intros [H|H]; [auto|destruct H; [auto|contradiction]|auto|auto]. Qed.

Lemma solution_facts s : good_solution P0 VE CE s ->
  placement (hval s) /\ statements (hval s) /\ einstein_decode variables_ s = Ok (zsol (hval s)) /\ facts (val s).
Proof.
  intros [Hd Hc].
  assert (HD : forall p, In p CD -> sat P0 (val s) p) by (intros p Hp; apply Hc; unfold CE; apply in_or_app; now left).
  assert (HS : forall p, In p CS -> sat P0 (val s) p) by (intros p Hp; apply Hc; unfold CE; apply in_or_app; now right).
  pose proof (proj1 (sat_CD _) HD) as HD'. pose proof (proj1 (sat_CS _) HS) as HS'.
  assert (Hv : forall k vs v, In (k, vs) attributes -> In v vs -> dget s (mkname k v) = Some (hval s k v) /\ In (hval s k v) indices).
  { intros k vs v Hk Hv. exact (Hd _ _ (VE_var k vs v Hk Hv)). }
  assert (Hpm : forall x, In x pm -> val s x = -1 \/ val s x = 1).
  { intros x Hx. apply pm_values. exact (proj2 (Hd _ _ (VE_pm x Hx))). }
  assert (Hpl : placement (hval s)).
  { intros k vs Hk. split; [intros v Hv'; apply in_indices; now apply (Hv k vs)|]. intros v v' H1 H2 H3. now apply (HD' k vs). }
  split; [exact Hpl|]. split; [|split; [|exact HS']].
  - pose proof (Hpm "Blend_cats"%string ltac:(cbn; tauto)). pose proof (Hpm "Dunhill_horse"%string ltac:(cbn; tauto)).
    pose proof (Hpm "Norwegian_blue"%string ltac:(cbn; tauto)). pose proof (Hpm "water_Blend"%string ltac:(cbn; tauto)).
    unfold facts, K in HS'. unfold statements, next_to, hval. destruct HS' as (F1 & F2 & F3 & F4 & F5 & F6 & F7 & F8 & F9 & F10 & F11 & F12 & F13 & F14 & F15).
    repeat (split; [lia|]). lia.
  - eapply eq_trans; [apply (set_kinds_spec s attributes (fun _ => [])); [apply attributes_facts|]|reflexivity].
    intros k vs Hk. split; [now apply (proj2 attributes_facts k)|]. split; [intros v Hv'; now apply (Hv k vs)|].
    split; [intros v v' H1 H2 H3; now apply (HD' k vs)|]. intros i [].
Qed.

Definition solution_of (h : string -> string -> Z) : subst :=
  flat_map (fun kv : string * list string => map (fun v => (mkname (fst kv) v, h (fst kv) v)) (snd kv)) attributes ++
  [("Blend_cats", h "smoke" "Blend" - h "animal" "cats"); ("Dunhill_horse", h "smoke" "Dunhill" - h "animal" "a horse");
   ("Norwegian_blue", h "owner" "Norwegian" - h "color" "blue"); ("water_Blend", h "drink" "water" - h "smoke" "Blend")]%string.
Lemma solution_names h : names_of (solution_of h) = names_of VE.
Proof. reflexivity. Qed.
Lemma solution_var h k vs v : In (k, vs) attributes -> In v vs -> val (solution_of h) (mkname k v) = h k v.
Proof.
  intros Hk Hv. apply val_In; [rewrite solution_names; exact (adds_NoDup _ _ _ _ einstein_adds)|]. unfold solution_of. apply in_or_app. left. apply in_flat_map.
  exists (k, vs). split; [exact Hk|]. cbn [fst snd]. apply in_map_iff. eauto.
Qed.

Lemma einstein_describes : describes einstein_init variables_ VE CE einstein_decode riddle_answer.
Proof.
  constructor.
  - exact einstein_adds.
  - discriminate.
  - intros p Hp. assert (A : forallb (fun p => match p with PForm f => f_safe f | PDiff _ => true end) CE = true) by (vm_compute; reflexivity).
    rewrite forallb_forall in A. specialize (A p Hp). destruct p; [exact A|exact Logic.I].
  - intros s Hg. destruct (solution_facts s Hg) as (H1 & H2 & H3 & _). exists (zsol (hval s)). split; [exact H3|].
    exists (hval s). split; [exact H1|]. split; [exact H2|]. now apply arrangement_iff.
  - intros s s' b Hg Hg' E E' x Hx. destruct (solution_facts s Hg) as (H1 & _ & H3 & F). destruct (solution_facts s' Hg') as (H1' & _ & H3' & F').
    assert (Ez : zsol (hval s) = zsol (hval s')) by congruence. pose proof (zsol_inj _ _ H1 H1' Ez) as Hk.
    unfold names_of in Hx. apply in_map_iff in Hx. destruct Hx as ([y d] & Ey & Hx). cbn in Ey. subst y. destruct (VE_cases x d Hx) as [(k & vs & v & Ha & Hv & -> & _)|[Hpm _]].
    + exact (Hk k vs v Ha Hv).
    + unfold facts, K in F, F'. destruct F as (_ & _ & _ & _ & _ & _ & _ & _ & _ & F1 & F2 & _ & _ & F3 & F4).
      destruct F' as (_ & _ & _ & _ & _ & _ & _ & _ & _ & G1 & G2 & _ & _ & G3 & G4).
      assert (HK : forall k v, existsb (fun kv : string * list string => String.eqb k (fst kv) && memb v (snd kv)) attributes = true -> val s (mkname k v) = val s' (mkname k v)).
      { intros k v Hex. apply existsb_exists in Hex. destruct Hex as ([k' vs] & Ha & Hb). apply Bool.andb_true_iff in Hb. cbn [fst snd] in Hb. destruct Hb as [Hb1 Hb2].
        apply String.eqb_eq in Hb1. subst k'. apply memb_In in Hb2. exact (Hk k vs v Ha Hb2). }
      destruct Hpm as [<-|[<-|[<-|[<-|[]]]]].
      * rewrite <- F1, <- G1. rewrite !HK by reflexivity. reflexivity.
      * rewrite <- F2, <- G2. rewrite !HK by reflexivity. reflexivity.
      * rewrite <- F3, <- G3. rewrite !HK by reflexivity. reflexivity.
      * rewrite <- F4, <- G4. rewrite !HK by reflexivity. reflexivity.
  - intros z (h & Hp & Hst & Hz). apply arrangement_iff in Hz; [|exact Hp]. subst z.
    assert (Ha : forall k v, existsb (fun kv : string * list string => String.eqb k (fst kv) && memb v (snd kv)) attributes = true -> val (solution_of h) (mkname k v) = h k v).
    { intros k v Hex. apply existsb_exists in Hex. destruct Hex as ([k' vs] & Ha & Hb). apply Bool.andb_true_iff in Hb. cbn [fst snd] in Hb. destruct Hb as [Hb1 Hb2].
      apply String.eqb_eq in Hb1. subst k'. apply memb_In in Hb2. exact (solution_var h k vs v Ha Hb2). }
    assert (Hpm : forall x v, In (x, v) (solution_of h) -> val (solution_of h) x = v).
    { intros x v Hin. apply val_In; [rewrite solution_names; exact (adds_NoDup _ _ _ _ einstein_adds)|exact Hin]. }
    pose proof (Hpm "Blend_cats"%string _ ltac:(unfold solution_of; apply in_or_app; right; now left)) as Q1.
    pose proof (Hpm "Dunhill_horse"%string _ ltac:(unfold solution_of; apply in_or_app; right; right; now left)) as Q2.
    pose proof (Hpm "Norwegian_blue"%string _ ltac:(unfold solution_of; apply in_or_app; right; right; right; now left)) as Q3.
    pose proof (Hpm "water_Blend"%string _ ltac:(unfold solution_of; apply in_or_app; right; right; right; right; now left)) as Q4.
    assert (HS : facts (val (solution_of h))).
    { unfold facts, K. rewrite Q1, Q2, Q3, Q4. rewrite !Ha by reflexivity. unfold statements in Hst. intuition lia. }
    assert (HD : forall k vs v v', In (k, vs) attributes -> In v vs -> In v' vs -> v <> v' -> val (solution_of h) (mkname k v) <> val (solution_of h) (mkname k v')).
    { intros k vs v v' Hk Hv Hv' Hne. rewrite !(solution_var h k vs) by assumption. now apply (Hp k vs). }
    exists (val (solution_of h)). split; [|split].
    + intros x d Hx. destruct (VE_cases x d Hx) as [(k & vs & v & Hk & Hv & -> & ->)|[Hin ->]].
      * rewrite (solution_var h k vs v Hk Hv). apply in_indices. now apply (Hp k vs).
      * apply pm_values. unfold statements, next_to in Hst. destruct Hst as (_ & _ & _ & _ & _ & _ & _ & _ & _ & S1 & S2 & _ & _ & S3 & S4).
        destruct Hin as [<-|[<-|[<-|[<-|[]]]]]; [rewrite Q1|rewrite Q2|rewrite Q3|rewrite Q4]; lia.
    + intros p Hin. unfold CE in Hin. apply in_app_or in Hin. destruct Hin as [Hin|Hin]; [revert p Hin; apply sat_CD; exact HD|revert p Hin; apply sat_CS; exact HS].
    + intros s Hget.
      assert (Hv : forall k vs v, In (k, vs) attributes -> In v vs -> dget s (mkname k v) = Some (h k v)).
      { intros k vs v Hk Hv. rewrite Hget; [f_equal; now apply (solution_var h k vs)|]. apply in_map_iff. exists (mkname k v, indices). split; [reflexivity|now apply (VE_var k vs)]. }
      assert (Hh : forall k vs v, In (k, vs) attributes -> In v vs -> hval s k v = h k v) by (intros k vs v Hk Hv'; unfold hval, val, dget_or; now rewrite (Hv k vs v)).
      assert (Hps : placement (hval s)).
      { intros k vs Hk. destruct (Hp k vs Hk) as [A1 A2]. split; [intros v Hv'; rewrite (Hh k vs v) by assumption; auto|].
        intros v v' H1 H2 H3. rewrite !(Hh k vs) by assumption. auto. }
      eapply eq_trans; [apply (set_kinds_spec s attributes (fun _ => []))|]; cycle 2.
      * apply f_equal. change (zsol (hval s) = zsol h). apply (arrangement_iff h Hp). destruct (proj2 (arrangement_iff (hval s) Hps _) eq_refl) as [B1 B2].
        split; [exact B1|]. intros i row Hin. destruct (B2 i row Hin) as [B3 B4]. split; [exact B3|]. intros k v Hkv.
        destruct (B4 k v Hkv) as [(vs & Hk & Hv') E]. split; [eauto|]. rewrite <- (Hh k vs v Hk Hv'). exact E.
      * apply attributes_facts.
      * intros k vs Hk. destruct (Hps k vs Hk) as [A1 A2]. split; [now apply (proj2 attributes_facts k)|].
        split; [intros v Hv'; rewrite (Hh k vs v Hk Hv'); split; [now apply (Hv k vs)|]; rewrite <- (Hh k vs v Hk Hv'); apply in_indices; now apply A1|].
        split; [exact A2|]. intros i [].
Qed.
Lemma einstein_unfolded clk shuffle o : shuffles shuffle ->
  exactly (fun fuel => puzzle_run clk shuffle fuel einstein_init einstein_decode (options_solver MIN_BOUND o)) riddle_answer (o_timeout o) (o_limit o).
Proof. intros Hs. exact (describes_exactly clk shuffle _ _ _ _ _ _ _ _ _ _ einstein_describes Hs). Qed.
Lemma einstein_exact clk shuffle o : shuffles shuffle ->
  exactly (fun fuel => einstein_run clk shuffle fuel o) riddle_answer (o_timeout o) (o_limit o).
Proof. intros Hs. unfold einstein_run. now apply einstein_unfolded. Qed.
