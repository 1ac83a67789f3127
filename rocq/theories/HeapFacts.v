(** The generator of [HeapSolver.v] runs as the one of [Solver.v]. *)
From Coq Require Import Lia.
From Verif Require Import ExprFacts DictFacts HeapSolver SpecHeap.
Open Scope list_scope.
Open Scope Z_scope.

(** ** Dicts of objects *)
Definition dmap {A B} (f : A -> B) (d : dict A) : dict B := map (fun p => (fst p, f (snd p))) d.
Definition dvals {A} (d : dict A) : list A := map snd d.

Lemma dmap_dget {A B} (f : A -> B) d x : dget (dmap f d) x = option_map f (dget d x).
Proof. induction d as [|[y a] d IH]; cbn; [reflexivity|]. destruct (String.eqb x y); [reflexivity|exact IH]. Qed.

Lemma dmap_ddel {A B} (f : A -> B) d x : dmap f (ddel d x) = ddel (dmap f d) x.
Proof. induction d as [|[y a] d IH]; cbn; [reflexivity|]. destruct (String.eqb x y); cbn; [reflexivity|]. f_equal. exact IH. Qed.

Lemma dmap_dset {A B} (f : A -> B) d x a : dmap f (dset d x a) = dset (dmap f d) x (f a).
Proof. induction d as [|[y b] d IH]; cbn; [reflexivity|]. destruct (String.eqb x y); cbn; [reflexivity|]. f_equal. exact IH. Qed.

Lemma dmap_ext {A B} (f g : A -> B) d : (forall a, In a (dvals d) -> f a = g a) -> dmap f d = dmap g d.
Proof.
  intros E. apply map_ext_in. intros [y a] Hin. cbn. f_equal. apply E.
  change a with (snd (y, a)). apply in_map. exact Hin.
Qed.

Lemma dget_vals {A} (d : dict A) x a : dget d x = Some a -> In a (dvals d).
Proof. intros E. apply dget_In in E. change a with (snd (x, a)). apply in_map. exact E. Qed.

Lemma ddel_vals {A} (d : dict A) x a : In a (dvals (ddel d x)) -> In a (dvals d).
Proof. induction d as [|[y b] d IH]; cbn; [tauto|]. destruct (String.eqb x y); cbn; tauto. Qed.

Lemma ddel_vals_NoDup {A} (d : dict A) x : NoDup (dvals d) -> NoDup (dvals (ddel d x)).
Proof.
  induction d as [|[y b] d IH]; cbn; [auto|]. intros N. apply NoDup_cons_iff in N as [N1 N2].
  destruct (String.eqb x y); cbn; [exact N2|]. constructor; [|auto]. intros Hin. apply N1. eapply ddel_vals; eauto.
Qed.

Lemma dget_none_dset {A} (d : dict A) x a : dget d x = None -> dset d x a = d ++ [(x, a)].
Proof. intros E. apply dset_new. apply dget_None. exact E. Qed.

Lemma upd_eq {A} (f : nat -> A) r a : upd f r a r = a.
Proof. unfold upd. now rewrite Nat.eqb_refl. Qed.
Lemma upd_ne {A} (f : nat -> A) r a k : k <> r -> upd f r a k = f k.
Proof. intros N. unfold upd. destruct (Nat.eqb_spec k r) as [E|E]; [contradiction|reflexivity]. Qed.

(** A list changed in place. *)
Lemma dmap_upd {B} (f : nat -> B) d x r b : dget d x = Some r -> NoDup (dvals d) -> dmap (upd f r b) d = dset (dmap f d) x b.
Proof.
  induction d as [|[y a] d IH]; cbn; [discriminate|]. intros E N. apply NoDup_cons_iff in N as [N1 N2].
  destruct (String.eqb x y) eqn:Q; cbn.
  - injection E as ->. apply String.eqb_eq in Q. subst y. rewrite upd_eq. f_equal.
    apply dmap_ext. intros k Hk. apply upd_ne. intros ->. contradiction.
  - rewrite upd_ne; [f_equal; apply IH; assumption|]. intros ->. apply N1. eapply dget_vals; eauto.
Qed.

(** ** What a piece of the search leaves alone *)
Definition calm (n l : nat) (H H' : heap) : Prop :=
  (h_ndicts H <= h_ndicts H')%nat /\ (h_nlists H <= h_nlists H')%nat /\
  (forall r, (r < n)%nat -> h_dicts H' r = h_dicts H r) /\ (forall r, (r < l)%nat -> h_lists H' r = h_lists H r).

Definition views (w : world) (ad : list name) (cs : list constraint) (x : name) (s : subst) (v : Z) : res bool :=
  let s' := dset s x v in
  if existsb (fun y => match dget s' y with Some u => u =? v | None => false end) ad then Ok false else no_unsatisfied w cs s'.

Lemma hfilter_spec w ad cs x r d s vals : forall H,
  (forall v, dset (h_dicts H r) x v = dset s x v) ->
  let '(H', o) := hfilter w ad cs x r d vals H in
  h_ndicts H' = h_ndicts H /\ h_nlists H' = h_nlists H /\
  (forall k, k <> r -> h_dicts H' k = h_dicts H k) /\ (forall k, k <> d -> h_lists H' k = h_lists H k) /\
  (forall v, dset (h_dicts H' r) x v = dset s x v) /\
  match filterM (views w ad cs x s) vals with
  | Err e => o = Err e
  | Ok vs => o = Ok tt /\ h_lists H' d = h_lists H d ++ vs
  end.
Proof.
  induction vals as [|v vals IH]; intros H HS; cbn [hfilter filterM].
  - rewrite app_nil_r. auto 8.
  - set (H1 := set_dict H r (dset (h_dicts H r) x v)).
    assert (E1 : h_dicts H1 r = dset s x v) by (cbn; rewrite upd_eq; apply HS).
    assert (S1 : forall u, dset (h_dicts H1 r) x u = dset s x u) by (intros u; rewrite E1; apply dset_dset).
    assert (D1 : forall k, k <> r -> h_dicts H1 k = h_dicts H k) by (intros k K; cbn; apply upd_ne; exact K).
    rewrite E1. unfold views at 1. cbv zeta.
    destruct (existsb (fun y => match dget (dset s x v) y with Some u => u =? v | None => false end) ad) eqn:EX.
    + specialize (IH H1 S1). destruct (hfilter w ad cs x r d vals H1) as [H' o].
      destruct IH as (A & B & C & D & E & F). split; [exact A|]. split; [exact B|].
      split; [intros k K; rewrite C by exact K; auto|]. split; [exact D|]. split; [exact E|].
      cbn. destruct (filterM (views w ad cs x s) vals); exact F.
    + destruct (no_unsatisfied w cs (dset s x v)) as [[|]|ex] eqn:NU.
      * set (H2 := set_list H1 d (h_lists H1 d ++ [v])).
        specialize (IH H2 S1). destruct (hfilter w ad cs x r d vals H2) as [H' o].
        destruct IH as (A & B & C & D & E & F). split; [exact A|]. split; [exact B|].
        split; [intros k K; rewrite C by exact K; apply D1; exact K|].
        split; [intros k K; rewrite D by exact K; cbn; apply upd_ne; exact K|]. split; [exact E|].
        cbn. destruct (filterM (views w ad cs x s) vals) as [vs|e]; [|exact F].
        destruct F as [F1 F2]. split; [exact F1|]. rewrite F2. cbn. rewrite upd_eq, <- app_assoc. reflexivity.
      * specialize (IH H1 S1). destruct (hfilter w ad cs x r d vals H1) as [H' o].
        destruct IH as (A & B & C & D & E & F). split; [exact A|]. split; [exact B|].
        split; [intros k K; rewrite C by exact K; auto|]. split; [exact D|]. split; [exact E|].
        cbn. destruct (filterM (views w ad cs x s) vals); exact F.
      * cbn. repeat split; auto.
Qed.

(** ** The abstraction *)
Definition vstack (H : heap) (st : list (list name * nat)) : list (list name * subst) := map (fun p => (fst p, h_dicts H (snd p))) st.
Definition value_of (H : heap) (c : hcfg) : cfg := Cfg (vstack H (k_stack c)) (dmap (h_lists H) (k_doms c)).

Lemma vstack_ext H H' st : (forall p, In p st -> h_dicts H' (snd p) = h_dicts H (snd p)) -> vstack H' st = vstack H st.
Proof. intros E. apply map_ext_in. intros p Hp. rewrite (E p Hp). reflexivity. Qed.

(** [n], [l]: the number of objects before the search. *)
Definition inv (n l : nat) (given : list nat) (H : heap) (c : hcfg) : Prop :=
  (n <= h_ndicts H)%nat /\ (l <= h_nlists H)%nat /\
  (forall p, In p (k_stack c) -> (n <= snd p < h_ndicts H)%nat /\ ~ In (snd p) given) /\
  (forall r, In r given -> (n <= r < h_ndicts H)%nat) /\
  (forall d, In d (dvals (k_doms c)) -> (l <= d < h_nlists H)%nat) /\
  NoDup (dvals (k_doms c)).

Definition objects (l : nat) (objs : dict dobj) (doms : dict (list Z)) (H : heap) : Prop :=
  (forall x, dget doms x = option_map (elements H) (dget objs x)) /\
  (forall x r, dget objs x = Some (Shared r) -> (r < l)%nat).

Definition hstep_ok (n l : nat) (given : list nat) (w : world) (i : ginfo) (H : heap) (c : hcfg) (H' : heap) (k : hres) : Prop :=
  calm (h_ndicts H) l H H' /\
  match k with
  | HErr e => core_step w i (value_of H c) = CErr e
  | HNext c' => core_step w i (value_of H c) = CNext (value_of H' c') /\ inv n l given H' c'
  | HYield r c' => core_step w i (value_of H c) = CYield (h_dicts H' r) (value_of H' c') /\ inv n l (r :: given) H' c' /\ ~ In r given
  end.

(** After the choice of the list [d] for [x]. *)
Lemma htake_ok n l given (w : world) (i : ginfo) H0 H x rest r d stack doms s :
  (forall v, dset (h_dicts H r) x v = dset s x v) ->
  (n <= h_ndicts H0)%nat -> r = h_ndicts H0 -> h_ndicts H = S (h_ndicts H0) -> (h_nlists H0 <= h_nlists H)%nat ->
  (forall k, k <> r -> h_dicts H k = h_dicts H0 k) -> (forall k, (k < l)%nat -> h_lists H k = h_lists H0 k) ->
  h_lists H d <> [] -> dget doms x = Some d -> inv n l given H (HCfg stack doms) ->
  (forall p, In p stack -> snd p <> r) -> ~ In r given ->
  let '(H', k) := htake H x rest r d stack doms in
  calm (h_ndicts H0) l H0 H' /\
  match k with
  | HErr e => take_value x rest s (h_lists H d) (vstack H0 stack) (dmap (h_lists H) doms) = CErr e
  | HNext c' => take_value x rest s (h_lists H d) (vstack H0 stack) (dmap (h_lists H) doms) = CNext (value_of H' c') /\ inv n l given H' c'
  | HYield r c' => take_value x rest s (h_lists H d) (vstack H0 stack) (dmap (h_lists H) doms) = CYield (h_dicts H' r) (value_of H' c') /\ inv n l (r :: given) H' c' /\ ~ In r given
  end.
Proof.
  intros HS HNN HR HN HL HD HLL HNE GD (I1 & I2 & I3 & I4 & I5 & I6) HST HG. cbn [k_stack k_doms] in *.
  unfold htake. destruct (h_lists H d) as [|v ld] eqn:LD; [congruence|].
  assert (DR : (l <= d)%nat) by (apply I5; eapply dget_vals; eauto).
  set (H1 := set_list H d ld). set (H2 := set_dict H1 r (dset (h_dicts H1 r) x v)).
  assert (E2 : h_dicts H2 r = dset s x v) by (cbn; rewrite upd_eq; apply HS).
  assert (O2 : forall k, k <> r -> h_dicts H2 k = h_dicts H0 k) by (intros k K; cbn; rewrite upd_ne by exact K; apply HD; exact K).
  assert (C2 : calm (h_ndicts H0) l H0 H2).
  { split; [cbn; lia|]. split; [cbn; lia|]. split; [intros k K; apply O2; lia|].
    intros k K. cbn. rewrite upd_ne by lia. apply HLL. exact K. }
  assert (V2 : vstack H2 stack = vstack H0 stack) by (apply vstack_ext; intros p Hp; apply O2; apply HST; exact Hp).
  assert (D2 : dmap (h_lists H2) doms = dset (dmap (h_lists H) doms) x ld) by (cbn; apply dmap_upd; assumption).
  unfold take_value. destruct rest as [|y rest].
  - split; [exact C2|]. split; [|split].
    + unfold value_of. cbn [k_stack k_doms]. rewrite E2, V2, D2. reflexivity.
    + split; [exact I1|]. split; [exact I2|]. cbn [k_stack k_doms]. split; [|split; [|split; [exact I5|exact I6]]].
      * intros p Hp. split; [apply I3; exact Hp|]. intros [Q|Q]; [apply (HST p Hp); auto|]. apply (I3 p Hp). exact Q.
      * intros k [<-|K]; [|apply I4; exact K]. cbn. lia.
    + exact HG.
  - split; [exact C2|]. split.
    + unfold value_of. cbn [k_stack k_doms]. unfold vstack at 2. cbn [map fst snd]. fold (vstack H2 stack). rewrite E2, V2, D2. reflexivity.
    + split; [exact I1|]. split; [exact I2|]. cbn [k_stack k_doms]. split; [|split; [exact I4|split; [exact I5|exact I6]]].
      intros p [<-|Hp]; [|apply I3; exact Hp]. cbn. split; [lia|exact HG].
Qed.

Lemma hstep_sim n l given w i objs H c H' k :
  inv n l given H c -> objects l objs (i_doms i) H -> hstep w i objs H c = (H', k) -> hstep_ok n l given w i H c H' k.
Proof.
  intros I O E. pose proof I as (I1 & I2 & I3 & I4 & I5 & I6). destruct O as [O1 O2].
  unfold hstep in E. unfold hstep_ok, core_step, value_of. cbn [g_stack g_doms].
  destruct c as [[|[[|x rest] s] stack] doms]; cbn [k_stack k_doms vstack map fst snd] in *.
  - injection E as <- <-. split; [|reflexivity]. repeat split; auto.
  - injection E as <- <-. split; [|reflexivity]. repeat split; auto.
  - cbn [new_dict] in E. set (r := h_ndicts H) in *.
    set (H1 := Heap (upd (h_dicts H) r (h_dicts H s)) (S r) (h_lists H) (h_nlists H)) in *.
    assert (R1 : h_dicts H1 r = h_dicts H s) by (cbn; apply upd_eq).
    assert (O1' : forall k, k <> r -> h_dicts H1 k = h_dicts H k) by (intros k0 K; cbn; apply upd_ne; exact K).
    assert (FR : forall p, In p ((x :: rest, s) :: stack) -> snd p <> r).
    { intros p Hp Q. destruct (I3 p Hp) as [B _]. unfold r in Q. lia. }
    assert (FG : ~ In r given) by (intros Q; apply I4 in Q; unfold r in Q; lia).
    assert (VS : forall st, (forall p, In p st -> In p ((x :: rest, s) :: stack)) -> vstack H1 st = vstack H st).
    { intros st Hst. apply vstack_ext. intros p Hp. apply O1'. apply FR. auto. }
    rewrite dmap_dget. destruct (dget doms x) as [d|] eqn:GD; cbn [option_map].
    + destruct (h_lists H1 d) as [|v ld] eqn:LD.
      * injection E as <- <-. change (h_lists H1 d) with (h_lists H d) in LD. rewrite LD.
        split; [repeat split; cbn; auto; try (unfold r; lia); intros k0 K; apply upd_ne; unfold r; lia|].
        split.
        { unfold value_of. cbn [k_stack k_doms]. rewrite dmap_ddel, VS; [reflexivity|]. intros p Hp. right. exact Hp. }
        split; [cbn; lia|]. split; [exact I2|]. cbn [k_stack k_doms]. split; [|split; [|split]].
        { intros p Hp. destruct (I3 p (or_intror Hp)) as [B1 B2]. cbn. split; [unfold r; lia|exact B2]. }
        { intros q Q. apply I4 in Q. cbn. unfold r. lia. }
        { intros q Q. apply ddel_vals in Q. apply I5 in Q. exact Q. }
        { apply ddel_vals_NoDup. exact I6. }
      * change (h_lists H1 d) with (h_lists H d) in LD. rewrite LD.
        pose proof (htake_ok n l given w i H H1 x rest r d ((x :: rest, s) :: stack) doms (h_dicts H s)) as T.
        rewrite E in T. change (h_lists H1 d) with (h_lists H d) in T. rewrite LD in T. apply T; clear T E.
        { intros u. rewrite R1. reflexivity. } { exact I1. }
        { reflexivity. } { reflexivity. } { cbn. lia. } { exact O1'. } { reflexivity. } { discriminate. } { exact GD. }
        { split; [cbn; lia|]. split; [exact I2|]. cbn [k_stack k_doms]. split; [|split; [|split; [exact I5|exact I6]]].
          - intros p Hp. destruct (I3 p Hp) as [B1 B2]. cbn. split; [unfold r; lia|exact B2].
          - intros q Q. apply I4 in Q. cbn. unfold r. lia. }
        { exact FR. } { exact FG. }
    + cbn [new_list] in E. cbn [h_nlists H1] in E. set (d := h_nlists H) in *.
      set (H2 := Heap (h_dicts H1) (h_ndicts H1) (upd (h_lists H1) d []) (S d)) in *.
      unfold filter_domain. rewrite O1. destruct (dget objs x) as [o|] eqn:GO; cbn [option_map].
      2: { injection E as <- <-. split; [|reflexivity]. repeat split; cbn; auto; try (unfold r; lia).
           - intros k0 K. apply upd_ne. unfold r. lia.
           - intros k0 K. apply upd_ne. unfold d. lia. }
      assert (EL : elements H2 o = elements H o).
      { destruct o as [lz|q]; cbn; [reflexivity|]. apply upd_ne. apply O2 in GO. unfold d. lia. }
      rewrite EL in E.
      pose proof (hfilter_spec w (dget_or (i_ad i) x []) (dget_or (i_cons i) x []) x r d (h_dicts H s) (elements H o) H2) as F.
      assert (F0 : forall v, dset (h_dicts H2 r) x v = dset (h_dicts H s) x v) by (intros v; cbn; rewrite upd_eq; reflexivity).
      specialize (F F0). destruct (hfilter w (dget_or (i_ad i) x []) (dget_or (i_cons i) x []) x r d (elements H o) H2) as [H3 q].
      destruct F as (N3 & L3 & D3 & A3 & S3 & F).
      assert (C3 : calm r l H H3).
      { split; [rewrite N3; cbn; unfold r; lia|]. split; [rewrite L3; cbn; unfold d; lia|]. split.
        - intros k0 K. rewrite D3 by lia. cbn. apply upd_ne. lia.
        - intros k0 K. rewrite A3 by (unfold d; lia). cbn. apply upd_ne. unfold d. lia. }
      change (accept w i x (h_dicts H s)) with (views w (dget_or (i_ad i) x []) (dget_or (i_cons i) x []) x (h_dicts H s)).
      assert (X2 : h_lists H2 d = []) by (cbn; apply upd_eq). rewrite X2 in F. cbn [app] in F.
      assert (LH : forall a, In a (dvals doms) -> h_lists H3 a = h_lists H a).
      { intros a Ha. apply I5 in Ha. rewrite A3 by (unfold d; lia). cbn. apply upd_ne. unfold d. lia. }
      assert (DH : forall p, In p ((x :: rest, s) :: stack) -> h_dicts H3 (snd p) = h_dicts H (snd p)).
      { intros p Hp. destruct (I3 p Hp) as [B _]. rewrite D3 by (unfold r; lia). cbn. apply upd_ne. unfold r. lia. }
      destruct (filterM (views w (dget_or (i_ad i) x []) (dget_or (i_cons i) x []) x (h_dicts H s)) (elements H o)) as [vs|ex].
      2: { subst q. injection E as <- <-. split; [exact C3|reflexivity]. }
      destruct F as [-> LD]. rewrite LD in E. destruct vs as [|v vs].
      * injection E as <- <-. split; [exact C3|]. split.
        { unfold value_of. cbn [k_stack k_doms]. f_equal. f_equal.
          - symmetry. apply vstack_ext. intros p Hp. apply DH. right. exact Hp.
          - symmetry. apply dmap_ext. exact LH. }
        split; [rewrite N3; cbn; unfold r; lia|]. split; [rewrite L3; cbn; unfold d; lia|]. cbn [k_stack k_doms].
        split; [|split; [|split; [|exact I6]]].
        { intros p Hp. destruct (I3 p (or_intror Hp)) as [B1 B2]. rewrite N3. cbn. split; [unfold r; lia|exact B2]. }
        { intros a Q. apply I4 in Q. rewrite N3. cbn. unfold r. lia. }
        { intros a Q. apply I5 in Q. rewrite L3. cbn. unfold d. lia. }
      * pose proof (htake_ok n l given w i H H3 x rest r d ((x :: rest, s) :: stack) (dset doms x d) (h_dicts H s)) as T.
        rewrite E in T. rewrite LD in T. rewrite dmap_dset in T. rewrite LD in T.
        rewrite (dmap_ext (h_lists H3) (h_lists H) doms) in T by exact LH. apply T; clear T E.
        { exact S3. } { exact I1. } { reflexivity. } { rewrite N3. reflexivity. } { rewrite L3. cbn. unfold d. lia. }
        { intros k0 K. rewrite D3 by exact K. cbn. apply upd_ne. exact K. }
        { apply C3. } { discriminate. } { apply dget_dset_eq. }
        { split; [rewrite N3; cbn; unfold r; lia|]. split; [rewrite L3; cbn; unfold d; lia|]. cbn [k_stack k_doms].
          rewrite dget_none_dset by exact GD. unfold dvals. rewrite map_app. cbn [map snd].
          split; [|split; [|split]].
          - intros p Hp. destruct (I3 p Hp) as [B1 B2]. rewrite N3. cbn. split; [unfold r; lia|exact B2].
          - intros a Q. apply I4 in Q. rewrite N3. cbn. unfold r. lia.
          - intros a Q. rewrite L3. cbn. apply in_app_or in Q as [Q|[<-|[]]]; [apply I5 in Q|]; unfold d; lia.
          - fold (dvals doms). apply NoDup_snoc; [exact I6|]. intros Q. apply I5 in Q. unfold d in Q. lia. }
        { exact FR. } { exact FG. }
Qed.

(** ** [_setup] *)
Lemma setup_step_doms comp w u c w' u' x :
  match c_body c, c_vars c with CAllDiff _, _ => false | _, [y] => String.eqb x y | _, _ => false end = false ->
  setup_step comp w u c = (w', Ok u') -> dget (u_doms u') x = dget (u_doms u) x.
Proof.
  intros R E. unfold setup_step in E. cbv zeta in E. destruct (c_body c); destruct (c_vars c) as [|y [|z cv]];
    try (injection E as <- <-; reflexivity);
    (destruct (dget (u_doms u) y) as [dom|]; [|injection E as <- <-; reflexivity];
     match type of E with match ?f with _ => _ end = _ => destruct f as [dom'|]; [|discriminate] end;
     injection E as <- <-; cbn; apply dget_dset_ne; intros ->; rewrite String.eqb_refl in R; discriminate).
Qed.

Lemma setup_loop_doms comp cs x : forall w u w' u',
  replaced cs x = false -> setup_loop comp w u cs = (w', Ok u') -> dget (u_doms u') x = dget (u_doms u) x.
Proof.
  induction cs as [|c cs IH]; intros w u w' u' R E; cbn in E; [injection E as <- <-; reflexivity|].
  cbn in R. apply Bool.orb_false_iff in R as [R1 R2].
  destruct (setup_step comp w u c) as [w1 [u1|ex]] eqn:S1; [|discriminate].
  rewrite (IH _ _ _ _ R2 E). eapply setup_step_doms; eauto.
Qed.

Lemma pure_current home H vs x v : In (x, v) (pure_variables (current_vars home H vs)) ->
  exists d, v = elements H (object_of home x d).
Proof.
  induction vs as [|[y [d|r]] vs IH]; cbn; [tauto| |exact IH].
  intros [E|E]; [|exact (IH E)]. injection E as <- <-. exists d. reflexivity.
Qed.

Lemma loop_objects_get home cs doms x :
  dget (loop_objects home cs doms) x = option_map (fun v => if replaced cs x then Frozen v else object_of home x v) (dget doms x).
Proof.
  induction doms as [|[y v] doms IH]; cbn; [reflexivity|]. destruct (String.eqb x y) eqn:Q; [|exact IH].
  apply String.eqb_eq in Q. subst y. reflexivity.
Qed.

Lemma begin_cases clk shuffle e sv a e' g ev : begin clk shuffle e sv a = (e', g, ev) ->
  (g = GDone /\ (ev = EvStop \/ exists ex, ev = EvRaise ex)) \/
  exists lo names w' u, g = GLoop lo (Cfg [(names, [])] []) 0 /\ ev = EvNone /\
    do_setup (s_compile sv) (e_world e) (x_additional a) = (w', Ok u) /\ i_doms (l_info lo) = u_doms u.
Proof.
  unfold begin. cbv zeta. intros E. destruct (negb (m_solvable (w_model (e_world (reset e))))).
  { injection E as <- <- <-. auto. }
  change (e_world (reset e)) with (e_world e) in E.
  destruct (do_setup (s_compile sv) (e_world e) (x_additional a)) as [w' [u|ex]] eqn:DS.
  2: { injection E as <- <- <-. left. eauto. }
  match type of E with match ?f with _ => _ end = _ => destruct f as [|nm names] end.
  { injection E as <- <- <-. auto. }
  match type of E with match ?f with _ => _ end = _ => destruct f as [e1 [[]|ex]] end.
  - injection E as <- <- <-. right. do 4 eexists. split; [reflexivity|]. split; [reflexivity|]. split; [reflexivity|reflexivity].
  - injection E as <- <- <-. left. eauto.
Qed.

Lemma setup_doms comp w add w' u x : do_setup comp w add = (w', Ok u) -> replaced (m_cons (w_model w) ++ add) x = false ->
  dget (u_doms u) x = dget (pure_variables (m_vars (w_model w))) x.
Proof.
  intros E R. unfold do_setup in E. cbv zeta in E.
  match type of E with match ?f with _ => _ end = _ => destruct f as [w1 [u1|ex]] eqn:SL; [|discriminate] end.
  destruct (check_groups (u_bounds u1) (u_groups u1)); [|discriminate]. injection E as <- <-.
  rewrite (setup_loop_doms _ _ _ _ _ _ _ R SL). reflexivity.
Qed.

Lemma objects_start home H w comp add w' u :
  homes home H -> do_setup comp (current_world home H w) add = (w', Ok u) ->
  let objs := loop_objects home (m_cons (w_model w) ++ add) (u_doms u) in
  objects (h_nlists H) objs (u_doms u) H /\ (forall x r, dget objs x = Some (Shared r) -> dget home x = Some (Shared r)).
Proof.
  intros HH DS objs.
  assert (SH : forall x r, dget objs x = Some (Shared r) -> dget home x = Some (Shared r)).
  { intros x r. unfold objs. rewrite loop_objects_get. destruct (dget (u_doms u) x) as [v|]; [|discriminate]. cbn.
    destruct (replaced _ x); [discriminate|]. unfold object_of. destruct (dget home x); [|discriminate]. congruence. }
  split; [split|exact SH].
  - intros x. unfold objs. rewrite loop_objects_get. destruct (dget (u_doms u) x) as [v|] eqn:GV; [|reflexivity]. cbn. f_equal.
    destruct (replaced (m_cons (w_model w) ++ add) x) eqn:R; [reflexivity|].
    rewrite (setup_doms _ _ _ _ _ x DS R) in GV. cbn in GV. apply dget_In in GV. apply pure_current in GV as [d GV].
    unfold object_of in *. destruct (dget home x); [exact GV|]. reflexivity.
  - intros x r E. apply SH in E. eapply HH; eauto.
Qed.

(** ** The generator *)
Section Simulation.
Variable clk : nat -> Z.
Variable shuffle : list name -> list name.
Variable home : dict dobj.
Variables dicts lists : nat -> Prop.
Variables n l : nat.

Definition loop_sim (given : list nat) (H : heap) (lo : local) (objs : dict dobj) (c : hcfg) (c' : cfg) : Prop :=
  c' = value_of H c /\ inv n l given H c /\ objects l objs (i_doms (l_info lo)) H /\
  (forall x r, dget objs x = Some (Shared r) -> ~ lists r).

Definition gsim (given : list nat) (H : heap) (hg : hgen) (g : gen) : Prop :=
  match hg, g with
  | KLoop lo objs c m, GLoop lo' c' m' => lo = lo' /\ m = m' /\ loop_sim given H lo objs c c'
  | KYield lo objs c m, GYield lo' c' m' => lo = lo' /\ m = m' /\ loop_sim given H lo objs c c'
  | KDone, GDone => True
  | _, _ => False
  end.

Definition vevent (H : heap) (k : hevent) : event :=
  match k with KNone => EvNone | KGive r => EvYield (h_dicts H r) | KStop => EvStop | KRaise ex => EvRaise ex end.

Definition hmicro_ok (given : list nat) (H : heap) (e' : env) (H' : heap) (hg' : hgen) (k : hevent) (m : env * gen * event) : Prop :=
  calm (h_ndicts H) l H H' /\ exists g', m = (e', g', vevent H' k) /\
  match k with
  | KNone => gsim given H' hg' g'
  | KGive r => ~ In r given /\ (n <= r < h_ndicts H')%nat /\ gsim (r :: given) H' hg' g'
  | _ => True
  end.

Lemma calm_refl a b H : calm a b H H.
Proof. repeat split; auto. Qed.

Lemma objects_calm k objs doms H H' : calm k l H H' -> objects l objs doms H -> objects l objs doms H'.
Proof.
  intros (_ & _ & _ & C) [O1 O2]. split; [|exact O2]. intros x. rewrite O1. specialize (O2 x).
  destruct (dget objs x) as [[lz|r]|]; cbn; [reflexivity| |reflexivity]. rewrite C; [reflexivity|]. apply O2. reflexivity.
Qed.

Lemma hmicro_sim given e H hg g e' H' hg' k :
  gsim given H hg g -> hmicro clk shuffle home e H hg = (e', H', hg', k) -> hmicro_ok given H e' H' hg' k (micro clk shuffle e g).
Proof.
  intros G E. destruct hg as [sv a|lo objs c m|lo objs c m|]; destruct g as [sv' a'|lo' c' m'|lo' c' m'|]; try contradiction G.
  - destruct G as (<- & <- & -> & I & O & OL). cbn [hmicro micro] in E |- *.
    destruct (k_stack c) as [|fr st] eqn:KS.
    { injection E as <- <- <- <-. unfold value_of. rewrite KS. cbn. split; [apply calm_refl|]. eexists. split; [reflexivity|exact Logic.I]. }
    assert (GS : exists p q, g_stack (value_of H c) = p :: q) by (unfold value_of; rewrite KS; cbn; eauto).
    destruct GS as (p & q & GS). rewrite GS.
    assert (CT : forall ev, snd (check_timeout clk e lo) = Some ev -> ev = EvStop \/ exists ex, ev = EvRaise ex).
    { intros ev. unfold check_timeout. cbv zeta. destruct (l_timeout lo) as [|t|]; cbn; [discriminate| |intros Q; injection Q as <-; eauto].
      destruct (t <? _); cbn; [intros Q; injection Q as <-; auto|discriminate]. }
    destruct (check_timeout clk e lo) as [e1 [ev|]].
    { destruct (CT ev eq_refl) as [->|[ex ->]]; injection E as <- <- <- <-; (split; [apply calm_refl|]; eexists; split; [reflexivity|exact Logic.I]). }
    destruct (hstep (e_world e1) (l_info lo) objs H c) as [H1 kr] eqn:HS.
    destruct (hstep_sim _ _ _ _ _ _ _ _ _ _ I O HS) as [CM KR]. destruct kr as [c1|r c1|ex].
    + injection E as <- <- <- <-. destruct KR as [KR I1]. rewrite KR. split; [exact CM|]. eexists. split; [reflexivity|].
      cbn. split; [reflexivity|]. split; [reflexivity|]. split; [reflexivity|]. split; [exact I1|].
      split; [apply (objects_calm _ _ _ _ _ CM O)|exact OL].
    + destruct KR as (KR & I1 & NG). rewrite KR. destruct (do_stop clk e1 (l_timer lo)) as [e2 [[]|ex]].
      * injection E as <- <- <- <-. split; [exact CM|]. eexists. split; [reflexivity|]. cbn. split; [exact NG|].
        split; [apply I1; left; reflexivity|]. split; [reflexivity|]. split; [reflexivity|].
        split; [reflexivity|]. split; [exact I1|]. split; [apply (objects_calm _ _ _ _ _ CM O)|exact OL].
      * injection E as <- <- <- <-. split; [exact CM|]. eexists. split; [reflexivity|exact Logic.I].
    + injection E as <- <- <- <-. rewrite KR. split; [exact CM|]. eexists. split; [reflexivity|exact Logic.I].
  - destruct G as (<- & <- & S). cbn [hmicro micro] in E |- *.
    destruct (l_limit lo) as [|z|].
    + destruct (do_start clk e (l_timer lo)) as [e1 [[]|ex]]; injection E as <- <- <- <-; (split; [apply calm_refl|]; eexists; split; [reflexivity|]; cbn; auto).
    + destruct (z <=? m).
      * injection E as <- <- <- <-. split; [apply calm_refl|]. eexists. split; [reflexivity|exact Logic.I].
      * destruct (do_start clk e (l_timer lo)) as [e1 [[]|ex]]; injection E as <- <- <- <-; (split; [apply calm_refl|]; eexists; split; [reflexivity|]; cbn; auto).
    + injection E as <- <- <- <-. split; [apply calm_refl|]. eexists. split; [reflexivity|exact Logic.I].
  - cbn in E |- *. injection E as <- <- <- <-. split; [apply calm_refl|]. eexists. split; [reflexivity|exact Logic.I].
Qed.

(** The body of the loop. *)
Hypothesis Hdicts : forall r, dicts r -> (r < n)%nat.
Hypothesis Hlists : forall r, lists r -> (r < l)%nat.
Variable body : list nat -> heap -> heap.
Hypothesis Hbody : changes_own dicts lists body.

Lemma inv_body given H c : inv n l given H c -> inv n l given (body given H) c /\ value_of (body given H) c = value_of H c.
Proof.
  intros (I1 & I2 & I3 & I4 & I5 & I6). destruct (Hbody given H) as (B1 & B2 & B3 & B4). split.
  - split; [lia|]. split; [lia|]. split; [|split; [|split; [|exact I6]]].
    + intros p Hp. destruct (I3 p Hp) as [A B]. split; [lia|exact B].
    + intros r Hr. apply I4 in Hr. lia.
    + intros r Hr. apply I5 in Hr. lia.
  - unfold value_of. f_equal.
    + apply vstack_ext. intros p Hp. destruct (I3 p Hp) as [A B]. apply B3; [lia|exact B|]. intros Q. apply Hdicts in Q. lia.
    + apply dmap_ext. intros d Hd. apply I5 in Hd. apply B4; [lia|]. intros Q. apply Hlists in Q. lia.
Qed.

Lemma gsim_body given H hg g : gsim given H hg g -> gsim given (body given H) hg g.
Proof.
  assert (L : forall lo objs c c', loop_sim given H lo objs c c' -> loop_sim given (body given H) lo objs c c').
  { intros lo objs c c' (-> & I & [O1 O2] & OL). destruct (inv_body _ _ _ I) as [I' V]. split; [auto|]. split; [exact I'|].
    split; [|exact OL]. split; [|exact O2]. intros x. rewrite O1. specialize (O2 x). specialize (OL x).
    destruct (dget objs x) as [[lz|r]|]; cbn; [reflexivity| |reflexivity].
    destruct (Hbody given H) as (_ & _ & _ & B4). rewrite B4; [reflexivity| |apply OL; reflexivity].
    destruct I as (_ & I2 & _). specialize (O2 r eq_refl). lia. }
  destruct hg, g; cbn; try tauto; intros (A & B & C); auto.
Qed.

Lemma set_world_same e : set_world e (e_world e) = e.
Proof. destruct e. reflexivity. Qed.

Definition loop_ok (given : list nat) (H : heap) (ys : list (nat * subst)) (H2 : heap) : Prop :=
  NoDup (map fst ys) /\
  (forall r, In r (map fst ys) -> ~ In r given /\ (n <= r)%nat) /\
  (forall r, (r < n)%nat -> ~ dicts r -> h_dicts H2 r = h_dicts H r) /\
  (forall r, (r < l)%nat -> ~ lists r -> h_lists H2 r = h_lists H r) /\
  ((forall gv K r, In r gv -> h_dicts (body gv K) r = h_dicts K r) ->
   (forall r, In r given -> h_dicts H2 r = h_dicts H r) /\ (forall p, In p ys -> h_dicts H2 (fst p) = snd p)).

Lemma hloop_sim fuel : forall given e H hg g k,
  gsim given H hg g -> (n <= h_ndicts H)%nat -> (l <= h_nlists H)%nat -> (forall r, In r given -> (n <= r < h_ndicts H)%nat) ->
  match hloop clk shuffle home fuel body given e H hg with
  | None => drain clk shuffle fuel passive k e g = None
  | Some (ys, H2, e2, o) => drain clk shuffle fuel passive k e g = Some (map snd ys, e2, o) /\ loop_ok given H ys H2
  end.
Proof.
  induction fuel as [|f IH]; intros given e H hg g k G N1 L1 GV; cbn [hloop drain]; [reflexivity|].
  destruct (hmicro clk shuffle home e H hg) as [[[e1 H1] hg1] ev] eqn:M.
  destruct (hmicro_sim _ _ _ _ _ _ _ _ _ G M) as [(C1 & C2 & C3 & C4) (g1 & -> & K)].
  destruct ev as [|r| |ex]; cbn [vevent].
  - assert (GV1 : forall r, In r given -> (n <= r < h_ndicts H1)%nat) by (intros r Hr; apply GV in Hr; lia).
    specialize (IH given e1 H1 hg1 g1 k K ltac:(lia) ltac:(lia) GV1).
    destruct (hloop clk shuffle home f body given e1 H1 hg1) as [[[[ys H2] e2] o]|]; [|exact IH].
    destruct IH as (IH & A & B & C & D & F). split; [exact IH|]. split; [exact A|]. split; [exact B|].
    split; [intros q Hq HD; rewrite C by assumption; apply C3; lia|].
    split; [intros q Hq HD; rewrite D by assumption; apply C4; exact Hq|].
    intros KP. destruct (F KP) as [F1 F2]. split; [|exact F2]. intros q Hq. rewrite F1 by exact Hq. apply C3. apply GV in Hq. lia.
  - destruct K as (NG & RN & G1). change (passive k (e_world e1) (h_dicts H1 r)) with (Ok (e_world e1)). cbn iota. rewrite set_world_same.
    destruct (Hbody (r :: given) H1) as (B1 & B2 & B3 & B4).
    assert (GV1 : forall q, In q (r :: given) -> (n <= q < h_ndicts (body (r :: given) H1))%nat).
    { intros q [<-|Hq]; [lia|]. apply GV in Hq. lia. }
    specialize (IH (r :: given) e1 (body (r :: given) H1) hg1 g1 (S k) (gsim_body _ _ _ _ G1) ltac:(lia) ltac:(lia) GV1).
    destruct (hloop clk shuffle home f body (r :: given) e1 (body (r :: given) H1) hg1) as [[[[ys H2] e2] o]|]; [|rewrite IH; reflexivity].
    destruct IH as (IH & A & B & C & D & F). rewrite IH. split; [reflexivity|]. split; [|split; [|split; [|split]]].
    + cbn. constructor; [|exact A]. intros Q. apply B in Q. apply (proj1 Q). left. reflexivity.
    + intros q [<-|Hq]; [split; [exact NG|apply RN]|]. apply B in Hq as [Hq1 Hq2]. split; [|exact Hq2]. intros Q. apply Hq1. right. exact Q.
    + intros q Hq HD. rewrite C by assumption. rewrite B3; [apply C3; lia|lia| |exact HD].
      intros [<-|Q]; [lia|]. apply GV in Q. lia.
    + intros q Hq HD. rewrite D by assumption. rewrite B4; [apply C4; exact Hq|lia|exact HD].
    + intros KP. destruct (F KP) as [F1 F2]. split.
      * intros q Hq. rewrite F1 by (right; exact Hq). rewrite KP by (right; exact Hq). apply C3. apply GV in Hq. lia.
      * intros p [<-|Hp]; [|apply F2; exact Hp]. cbn. rewrite F1 by (left; reflexivity). apply KP. left. reflexivity.
  - split; [reflexivity|]. split; [constructor|]. split; [intros q []|]. split; [intros q Hq _; apply C3; lia|].
    split; [intros q Hq _; apply C4; exact Hq|]. intros _. split; [|intros p []]. intros q Hq. apply C3. apply GV in Hq. lia.
  - split; [reflexivity|]. split; [constructor|]. split; [intros q []|]. split; [intros q Hq _; apply C3; lia|].
    split; [intros q Hq _; apply C4; exact Hq|]. intros _. split; [|intros p []]. intros q Hq. apply C3. apply GV in Hq. lia.
Qed.

End Simulation.

(** The whole loop. *)
Lemma hsolve_sim clk shuffle home dicts lists body e H sv a fuel :
  homes home H -> spare home H dicts lists -> changes_own dicts lists body ->
  match hloop clk shuffle home fuel body [] e H (KInit sv a) with
  | None => solve_all clk shuffle fuel (set_world e (current_world home H (e_world e))) sv a = None
  | Some (ys, H2, e2, o) =>
      solve_all clk shuffle fuel (set_world e (current_world home H (e_world e))) sv a = Some (map snd ys, e2, o) /\
      loop_ok dicts lists (h_ndicts H) (h_nlists H) body [] H ys H2
  end.
Proof.
  intros HH [SD SL] HB. destruct fuel as [|f]; [reflexivity|]. unfold solve_all. cbn [hloop drain hmicro micro].
  destruct (begin clk shuffle (set_world e (current_world home H (e_world e))) sv a) as [[e1 g1] ev] eqn:BG.
  assert (LE : forall ys, ys = [] -> loop_ok dicts lists (h_ndicts H) (h_nlists H) body [] H ys H).
  { intros ys ->. split; [constructor|]. split; [intros q []|]. split; [auto|]. split; [auto|]. intros _. split; intros q []. }
  destruct (begin_cases _ _ _ _ _ _ _ _ BG) as [[-> [->|[ex ->]]]|(lo & names & w' & u & -> & -> & DS & DI)].
  - split; [reflexivity|]. apply LE. reflexivity.
  - split; [reflexivity|]. apply LE. reflexivity.
  - cbn [new_dict g_stack map fst].
    set (H1 := Heap (upd (h_dicts H) (h_ndicts H) []) (S (h_ndicts H)) (h_lists H) (h_nlists H)).
    set (objs := loop_objects home (m_cons (w_model (e_world e)) ++ x_additional a) (i_doms (l_info lo))).
    pose proof (objects_start home H (e_world e) (s_compile sv) (x_additional a) w' u HH DS) as [OB OH].
    assert (G : gsim lists (h_ndicts H) (h_nlists H) [] H1 (KLoop lo objs (HCfg [(names, h_ndicts H)] []) 0) (GLoop lo (Cfg [(names, [])] []) 0)).
    { split; [reflexivity|]. split; [reflexivity|]. split; [unfold value_of; cbn; rewrite upd_eq; reflexivity|].
      split; [|split].
      - split; [cbn; lia|]. split; [cbn; lia|]. split; [|split; [|split; [|constructor]]].
        + intros p [<-|[]]. cbn. split; [lia|tauto].
        + intros q [].
        + intros q [].
      - unfold objs. rewrite DI. destruct OB as [O1 O2]. split; [|exact O2]. intros x. rewrite O1.
        destruct (dget _ x) as [[lz|q]|]; reflexivity.
      - intros x r E. unfold objs in E. rewrite DI in E. apply OH in E. intros Q. apply SL in Q. exact (proj2 Q x E). }
    pose proof (hloop_sim clk shuffle home dicts lists (h_ndicts H) (h_nlists H) SD (fun r Q => proj1 (SL r Q)) body HB f [] e1 H1 _ _ 0%nat G) as S.
    specialize (S ltac:(cbn; lia) ltac:(cbn; lia) ltac:(intros q [])).
    destruct (hloop clk shuffle home f body [] e1 H1 _) as [[[[ys H2] e2] o]|]; [|exact S].
    destruct S as (S & A & B & C & D & F). split; [exact S|]. split; [exact A|]. split; [exact B|].
    split; [intros q Hq HD; rewrite C by assumption; cbn; apply upd_ne; lia|]. split; [exact D|].
    intros KP. destruct (F KP) as [_ F2]. split; [intros q []|exact F2].
Qed.
