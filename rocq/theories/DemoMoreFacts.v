(** Lemmas behind Properties_Demo.v. *)
From Coq Require Import Lia Permutation.
From Verif Require Import DemoMore SpecDemo SpecPrint SpecPuzzle SpecSolve SpecStats StatsFacts PuzzleFacts DecFacts StrFacts DictFacts
  SpecKnapsack KnapsackFacts SpecGraph GraphFacts SpecAscii AsciiGroups AsciiFacts DemoRunFacts.
Open Scope list_scope.
Open Scope Z_scope.

(** ** Tuples *)
Definition intchar (c : ascii) : bool := is_digit c || Ascii.eqb c "-".
Lemma digits_intchar s : all_digits s = true -> allc intchar s = true.
Proof.
  induction s as [|c s IH]; [reflexivity|]. cbn [all_digits allc]. rewrite !andb_true_iff. intros [H1 H2]. split; [|auto].
  unfold intchar. now rewrite H1.
Qed.
Lemma str_int_chars z : allc intchar (str_int z) = true.
Proof.
  unfold str_int. destruct (z <? 0) eqn:E.
  - apply Z.ltb_lt in E. cbn [allc]. apply digits_intchar. apply (str_nonneg_dec (- z) ltac:(lia)).
  - apply Z.ltb_ge in E. apply digits_intchar. apply (str_nonneg_dec z E).
Qed.
Lemma str_int_split a b r r' : hdnot intchar r = true -> hdnot intchar r' = true -> (str_int a ++ r = str_int b ++ r')%string -> a = b /\ r = r'.
Proof.
  intros Hr Hr' E. pose proof (span_app intchar _ r (str_int_chars a) Hr) as H. rewrite E, (span_app intchar _ r' (str_int_chars b) Hr') in H.
  injection H as H1 H2. split; [|congruence]. now apply str_int_inj.
Qed.
Lemma tail_hd l t : ints_tail l t -> hdnot intchar t = true.
Proof. destruct 1; reflexivity. Qed.
Lemma ints_tail_inj l t : ints_tail l t -> forall l', ints_tail l' t -> l = l'.
Proof.
  induction 1 as [|a l t H IH]; intros l' H'; inversion H' as [E0 E'|b l0 t' H0 E0 E']; subst; try reflexivity.
  apply str_int_split in E'; [|now apply tail_hd in H0|now apply tail_hd in H].
  destruct E' as [-> ->]. f_equal. now apply IH.
Qed.
Lemma tuple_inj l l' t : is_tuple l t -> is_tuple l' t -> l = l'.
Proof.
  assert (Hc : forall z r, (str_int z ++ r)%string <> String ")" "").
  { intros z r E. pose proof (str_int_chars z) as H. destruct (str_int_first z) as (c & s & Es & _). rewrite Es in E, H. injection E as -> _. discriminate. }
  destruct 1 as [|a|a b l t H]; intros H'.
  - inversion H' as [E E'|a' E E'|a' b' l0 t' H0 E E']; [reflexivity| |]; now apply Hc in E'.
  - inversion H' as [E E'|a' E E'|a' b' l0 t' H0 E E'].
    + symmetry in E'. now apply Hc in E'.
    + apply str_int_split in E'; [|reflexivity|reflexivity]. destruct E' as [-> _]. reflexivity.
    + apply str_int_split in E'; [|now apply tail_hd in H0|reflexivity]. destruct E' as [-> E']. subst t'. inversion H0.
  - inversion H' as [E E'|a' E E'|a' b' l0 t' H0 E E'].
    + symmetry in E'. now apply Hc in E'.
    + apply str_int_split in E'; [|reflexivity|now apply tail_hd in H]. destruct E' as [-> E']. subst t. inversion H.
    + apply str_int_split in E'; [|now apply tail_hd in H0|now apply tail_hd in H]. destruct E' as [-> ->].
      f_equal. now apply (ints_tail_inj _ _ H).
Qed.
Lemma tuple_tail l : forall a, exists t, ints_tail l t /\ (str_int a ++ t = sjoin ", " (map str_int (a :: l)) ++ ")")%string.
Proof.
  induction l as [|b l IH]; intros a; [exists ")"%string; split; [constructor|reflexivity]|].
  destruct (IH b) as (t & Ht & E). exists (", " ++ str_int b ++ t)%string. split; [now constructor|].
  rewrite E. cbn [map]. change (sjoin ", " (str_int a :: str_int b :: map str_int l)) with (str_int a ++ ", " ++ sjoin ", " (map str_int (b :: l)))%string.
  rewrite !sapp_assoc. reflexivity.
Qed.
Lemma str_tuple_ok l : is_tuple l (str_tuple l).
Proof.
  destruct l as [|a [|b l]]; [constructor|constructor|]. cbn [str_tuple]. destruct (tuple_tail (b :: l) a) as (t & Ht & E).
  unfold str_tuple. rewrite <- E. now constructor.
Qed.

(** ** Selections *)
Lemma get_app s c r : String.get (String.length s) (s ++ String c r)%string = Some c.
Proof. induction s; [reflexivity|exact IHs]. Qed.
Lemma marks_ok x : marks x (solution_string x).
Proof.
  unfold solution_string. induction x as [|v x IH].
  - split; [reflexivity|]. split; [intros [|i] v; discriminate|intros i H; inversion H].
  - destruct x as [|w x].
    + cbn [map sjoin]. split; [unfold truthy; destruct (v =? 0); reflexivity|]. split; [|intros i H; cbn in H; lia].
      intros [|[|i]] u; cbn; try discriminate. intros [= ->]. unfold truthy. destruct (u =? 0); reflexivity.
    + destruct IH as (H1 & H2 & H3). set (m := fun item => if truthy item then "X"%string else "_"%string) in *.
      change (sjoin " " (map m (v :: w :: x))) with (m v ++ " " ++ sjoin " " (map m (w :: x)))%string.
      assert (Em : m v = String (if (v =? 0)%Z then "_"%char else "X"%char) "") by (unfold m, truthy; destruct (v =? 0); reflexivity). rewrite Em. clear Em.
      split; [cbn [append String.length]; rewrite H1; cbn [List.length]; lia|]. split.
      * intros [|i] u H; cbn in H; [injection H as ->; reflexivity|]. replace (2 * S i)%nat with (S (S (2 * i))) by lia. cbn [append String.get]. now apply H2.
      * intros [|i] H; [reflexivity|]. replace (2 * S i + 1)%nat with (S (S (2 * i + 1))) by lia. cbn [append String.get]. apply H3. cbn in *. lia.
Qed.
Lemma marks_inj x x' t : marks x t -> marks x' t -> x <> [] -> x' <> [] -> (forall v, In v x -> v = 0 \/ v = 1) -> (forall v, In v x' -> v = 0 \/ v = 1) -> x = x'.
Proof.
  intros (H1 & H2 & _) (H1' & H2' & _) Hn Hn' Hb Hb'.
  assert (El : List.length x = List.length x') by (destruct x; [contradiction|]; destruct x'; [contradiction|]; cbn [List.length] in *; lia).
  apply list_ext. intros i. destruct (nth_error x i) as [v|] eqn:E.
  - destruct (nth_error x' i) as [v'|] eqn:E'; [|apply nth_error_None in E'; assert (i < List.length x)%nat by (apply nth_error_Some; congruence); lia].
    f_equal. pose proof (H2 i v E) as G. rewrite (H2' i v' E') in G. injection G as G.
    destruct (Hb v (nth_error_In _ _ E)) as [->| ->], (Hb' v' (nth_error_In _ _ E')) as [->| ->]; cbn in G; congruence.
  - apply nth_error_None in E. symmetry. apply nth_error_None. lia.
Qed.

(** ** demo_knapsack *)
Lemma demo_run clk shuffle fuel seconds values caps rows t l r :
  knapsack_demo clk shuffle fuel seconds values caps rows t l = Some r ->
  exists kr stats, knapsack_run clk shuffle fuel values caps (Weights rows true) (Options None t l true) = Some (kr, snd stats) /\
    r = (let! k := kr in Ok (print_knapsack k ++ [print_optimization_stats seconds stats (Some (ks_optimal k))])).
Proof.
  unfold knapsack_demo, knapsack_run. destruct (construct _) as [[k e]|ex].
  - destruct (knapsack_call _ _ _ _ _ _) as [[e' [kr|ex]]|]; intros H; try discriminate; injection H as <-.
    + exists (Ok kr), (get_stats e'). split; reflexivity.
    + exists (Err ex), (get_stats e'). split; reflexivity.
  - intros [= <-]. exists (Err ex), (0, 0, None). split; reflexivity.
Qed.
Lemma says_sub seconds stats b : says (print_optimization_stats seconds stats (Some b)) "Found sub-optimal solution in " <-> b = false.
Proof.
  destruct stats as [[k el] i]. split.
  - intros (rest & E). destruct b; [discriminate|reflexivity].
  - intros ->. eexists. cbn. reflexivity.
Qed.
Lemma knapsack_program clk shuffle seconds values caps rows t l : instance values caps rows -> shuffles shuffle ->
  (exists fuel out, knapsack_demo clk shuffle fuel seconds (map Some values) (map Some caps) (map (map Some) rows) t l = Some (Ok out)) /\
  forall fuel r, knapsack_demo clk shuffle fuel seconds (map Some values) (map Some caps) (map (map Some) rows) t l = Some r ->
    exists out flag sol, r = Ok out /\ announces values caps rows t l flag sol out /\
      ((forall v, In v values -> 0 <= v) ->
       (List.length values = 1%nat \/ (forall v, In v values -> v = 0) \/ exists i j, i <> j /\ nth i values 0 <> 0 /\ nth j values 0 <> 0) ->
       flag = true -> forall x x', sol = Some x -> packing (List.length values) caps rows x' -> total x' values <= total x values).
Proof.
  intros Hi Hs.
  assert (Hmain : forall fuel r, knapsack_demo clk shuffle fuel seconds (map Some values) (map Some caps) (map (map Some) rows) t l = Some r ->
    exists out flag sol, r = Ok out /\ announces values caps rows t l flag sol out /\
      ((forall v, In v values -> 0 <= v) ->
       (List.length values = 1%nat \/ (forall v, In v values -> v = 0) \/ exists i j, i <> j /\ nth i values 0 <> 0 /\ nth j values 0 <> 0) ->
       flag = true -> forall x x', sol = Some x -> packing (List.length values) caps rows x' -> total x' values <= total x values)).
  { intros fuel r H. destruct (demo_run _ _ _ _ _ _ _ _ _ _ H) as (kr & stats & Hr & ->).
    destruct (knapsack_reports clk shuffle _ values caps rows true Hi Hs fuel kr _ Hr) as (sol & -> & (Hsol & Hflag & Hlim & Htime)). cbn [o_timeout o_limit] in *.
    exists (print_knapsack sol ++ [print_optimization_stats seconds stats (Some (ks_optimal sol))]), (ks_optimal sol), (ks_solution sol). split; [reflexivity|]. split.
    - assert (Hs1 : says (print_optimization_stats seconds stats (Some (ks_optimal sol))) "Found optimal solution in " <-> ks_optimal sol = true).
      { rewrite says_optimal. split; [intros [[= ->]|[E _]]; [reflexivity|discriminate]|intros ->; now left]. }
      assert (Hs2 := says_sub seconds stats (ks_optimal sol)).
      assert (Hend : (exists t0, t = Solver.LNum t0) \/ (exists k, l = Solver.LNum k) \/ snd stats = None).
      { destruct (snd stats) as [[|]|]; [right; left; now apply Hlim|left; now apply Htime|right; now right]. }
      unfold announces, print_knapsack. set (summary := print_optimization_stats _ _ _) in *. clearbody summary.
      destruct (ks_solution sol) as [x|].
      + destruct Hsol as (Hp & -> & ->). eexists; exists summary. split; [destruct (ks_optimal sol); reflexivity|].
        split; [split; [exact Hp|]; exists (solution_string x), (str_tuple (map (fun j => total x (column j rows)) (seq 0 (List.length caps)))); split; [apply marks_ok|]; split; [apply str_tuple_ok|reflexivity]|].
        split; [exact Hs1|]. split; [exact Hs2|]. destruct Hend as [Hend|[Hend|Hend]]; [now left|right; now left|right; right].
        apply Hflag. split; [discriminate|exact Hend].
      + destruct Hsol as (_ & _ & Hno). assert (Ef : ks_optimal sol = false) by (destruct (ks_optimal sol); [destruct (proj1 Hflag eq_refl) as [E _]; now destruct E|reflexivity]).
        eexists; exists summary. split; [destruct (ks_optimal sol); reflexivity|]. split; [split; [reflexivity|exact Ef]|].
        split; [exact Hs1|]. split; [exact Hs2|]. destruct Hend as [Hend|[Hend|Hend]]; [now left|right; now left|right; right; auto].
    - intros Hv Hc Hf x x' Ex Hx'.
      destruct (knapsack_optimal clk shuffle _ values caps rows true Hi Hs fuel sol _ Hv Hc Hr Hf) as (v & Ev & Hb).
      rewrite Ex in Hsol. destruct Hsol as (_ & Ev' & _). rewrite Ev in Ev'. injection Ev' as ->. apply Hb, Hx'. }
  split; [|exact Hmain].
  destruct (knapsack_terminates clk shuffle (Options None t l true) values caps rows true Hi Hs) as (fuel & out & H).
  assert (Hr : exists r, knapsack_demo clk shuffle fuel seconds (map Some values) (map Some caps) (map (map Some) rows) t l = Some r).
  { unfold knapsack_run in H. unfold knapsack_demo. destruct (construct _) as [[k e]|ex]; [|eauto]. destruct (knapsack_call _ _ _ _ _ _) as [[e' [kr|ex]]|]; eauto. discriminate. }
  destruct Hr as (r & Hr). exists fuel. destruct (Hmain fuel r Hr) as (out' & _ & _ & -> & _). eauto.
Qed.
Lemma knapsack_program_empty clk shuffle fuel seconds caps rows t l : knapsack_demo clk shuffle fuel seconds [] caps rows t l = Some (Err AttributeError).
Proof. reflexivity. Qed.

(** ** Literals *)
Definition is_quote (q : ascii) : Prop := q = "'"%char \/ q = """"%char.
Lemma quote_not_backslash q : is_quote q -> q <> backslash.
Proof. intros [->| ->]; discriminate. Qed.
Lemma escape_not_x c d : escape c = Some d -> c <> "x"%char.
Proof. intros H ->. discriminate. Qed.
Lemma body_split q t s : is_quote q -> body q t s -> forall t' s' r r', body q t' s' -> (t ++ String q r = t' ++ String q r')%string -> t = t' /\ s = s' /\ r = r'.
Proof.
  intros Hq. pose proof (quote_not_backslash q Hq) as Hb.
  induction 1 as [|c t s H1 H2 H3 Hbody IH|c d t s He Hbody IH|a b x y t s Ha Hb' Hbody IH]; intros t' s' r r' H' E;
    destruct H' as [|c' t' s' G1 G2 G3 G|c' d' t' s' Ge G|a' b' x' y' t' s' Ga Gb G]; cbn [append] in E; injection E; clear E; intros; subst; try contradiction;
    try (now apply escape_not_x in He); try (now apply escape_not_x in Ge); auto.
  - match goal with E : (_ ++ _ = _)%string |- _ => destruct (IH _ _ _ _ G E) as (-> & -> & ->) end. auto.
  - rewrite He in Ge. injection Ge as ->. match goal with E : (_ ++ _ = _)%string |- _ => destruct (IH _ _ _ _ G E) as (-> & -> & ->) end. auto.
  - rewrite Ha in Ga. rewrite Hb' in Gb. injection Ga as ->. injection Gb as ->.
    match goal with E : (_ ++ _ = _)%string |- _ => destruct (IH _ _ _ _ G E) as (-> & -> & ->) end. auto.
Qed.
Lemma literal_split t s t' s' r r' : literal t s -> literal t' s' -> (t ++ r = t' ++ r')%string -> s = s' /\ r = r'.
Proof.
  intros (q & u & Hq & -> & H) (q' & u' & Hq' & -> & H') E. cbn [append] in E. injection E as -> E. rewrite !sapp_assoc in E. cbn [append] in E.
  destruct (body_split q' u s Hq H u' s' r r' H' E) as (_ & ? & ?). auto.
Qed.
Lemma items_inj l t : items l t -> forall l', items l' t -> l = l'.
Proof.
  induction 1 as [|k v l tk tv t Hk Hv H IH]; intros l' H'; inversion H' as [E0 E|k' v' l0 tk' tv' t' Hk' Hv' H0 E0 E]; subst; try reflexivity.
  symmetry in E. apply (literal_split _ _ _ _ _ _ Hk Hk') in E. destruct E as [-> E]. injection E as E.
  apply (literal_split _ _ _ _ _ _ Hv Hv') in E. destruct E as [-> ->]. f_equal. now apply IH.
Qed.
Lemma literal_first t s : literal t s -> forall r, (t ++ r)%string <> "}"%string.
Proof. intros (q & u & [->| ->] & -> & _) r; discriminate. Qed.
Lemma dict_inj l l' t : is_dict l t -> is_dict l' t -> l = l'.
Proof.
  destruct 1 as [|k v l tk tv t Hk Hv H]; intros H'; inversion H' as [E0 E|k' v' l0 tk' tv' t' Hk' Hv' H0 E0 E]; subst; try reflexivity.
  - exfalso. revert E. apply (literal_first _ _ Hk').
  - exfalso. symmetry in E. revert E. apply (literal_first _ _ Hk).
  - symmetry in E. apply (literal_split _ _ _ _ _ _ Hk Hk') in E. destruct E as [-> E]. injection E as E.
    apply (literal_split _ _ _ _ _ _ Hv Hv') in E. destruct E as [-> ->]. f_equal. exact (items_inj _ _ H _ H0).
Qed.

Lemma hex_ok n : (n < 16)%nat -> hex_value (hex_digit n) = Some n.
Proof. intros H. do 16 (destruct n as [|n]; [reflexivity|]). lia. Qed.
Lemma escape_self c : is_quote c \/ c = backslash -> escape c = Some c.
Proof. intros [[->| ->]| ->]; reflexivity. Qed.
Lemma repr_char_ok q c t s : is_quote q -> (nat_of_ascii c < 128)%nat -> body q t s -> body q (repr_char q c ++ t) (String c s).
Proof.
  intros Hq Hc Ht. unfold repr_char.
  destruct (Ascii.eqb_spec c q) as [->|Hcq]; cbn [orb]; [cbn [append]; apply body_escape; [apply escape_self; now left|exact Ht]|].
  destruct (Ascii.eqb_spec c "\") as [->|Hcb]; [cbn [append]; apply body_escape; [reflexivity|exact Ht]|].
  destruct (Ascii.eqb_spec c "009") as [->|_]; [cbn [append]; now apply (body_escape q "t" "009")|].
  destruct (Ascii.eqb_spec c "010") as [->|_]; [cbn [append]; now apply (body_escape q "n" "010")|].
  destruct (Ascii.eqb_spec c "013") as [->|_]; [cbn [append]; now apply (body_escape q "r" "013")|].
  destruct ((nat_of_ascii c <? 32)%nat || (nat_of_ascii c =? 127)%nat) eqn:E.
  - cbn [append].
    assert (Hd : (nat_of_ascii c / 16 < 16)%nat) by (apply Nat.div_lt_upper_bound; lia).
    assert (Hm : (nat_of_ascii c mod 16 < 16)%nat) by (apply Nat.mod_upper_bound; lia).
    pose proof (body_hex q _ _ _ _ t s (hex_ok _ Hd) (hex_ok _ Hm) Ht) as H.
    rewrite <- Nat.div_mod in H by lia. rewrite ascii_nat_embedding in H. exact H.
  - apply orb_false_iff in E. destruct E as [E1 E2]. apply Nat.ltb_ge in E1. apply Nat.eqb_neq in E2. cbn [append].
    apply body_char; [exact Hcq|exact Hcb|lia|exact Ht].
Qed.
Lemma concat_cons x l : String.concat "" (x :: l) = (x ++ String.concat "" l)%string.
Proof. cbn [String.concat]. destruct l; [cbn; now rewrite sapp_nil_r|reflexivity]. Qed.
Lemma repr_body q s : is_quote q -> ascii_only s -> body q (String.concat "" (map (repr_char q) (list_ascii_of_string s))) s.
Proof.
  intros Hq. induction s as [|c s IH]; intros H; [constructor|]. cbn [list_ascii_of_string map]. rewrite concat_cons.
  apply repr_char_ok; [exact Hq|apply H; now left|]. apply IH. intros d Hd. apply H. now right.
Qed.
Lemma quote_ok s : is_quote (quote_of s).
Proof. unfold quote_of, is_quote. destruct (_ && _); auto. Qed.
Lemma repr_literal s : ascii_only s -> literal (py_repr s) s.
Proof. intros H. exists (quote_of s). eexists. split; [apply quote_ok|]. split; [reflexivity|]. now apply repr_body; [apply quote_ok|]. Qed.
Definition pair_text (p : string * string) : string := (py_repr (fst p) ++ ": " ++ py_repr (snd p))%string.
Lemma dict_items d : (forall k v, In (k, v) d -> ascii_only k /\ ascii_only v) ->
  forall p, exists t, items d t /\ (pair_text p ++ t = sjoin ", " (map pair_text (p :: d)) ++ "}")%string.
Proof.
  induction d as [|[k v] d IH]; intros H p; [exists "}"%string; split; [constructor|reflexivity]|].
  destruct (IH ltac:(intros; apply H; now right) (k, v)) as (t & Ht & E). destruct (H k v (or_introl eq_refl)) as [Hk Hv].
  exists (", " ++ pair_text (k, v) ++ t)%string. split.
  - unfold pair_text. cbn [fst snd]. rewrite !sapp_assoc. apply items_more; auto using repr_literal.
  - rewrite E. cbn [map]. change (sjoin ", " (pair_text p :: pair_text (k, v) :: map pair_text d)) with (pair_text p ++ ", " ++ sjoin ", " (map pair_text ((k, v) :: d)))%string.
    rewrite !sapp_assoc. reflexivity.
Qed.
Lemma str_dict_ok d : (forall k v, In (k, v) d -> ascii_only k /\ ascii_only v) -> is_dict d (str_dict d).
Proof.
  intros H. destruct d as [|[k v] d]; [constructor|]. unfold str_dict. fold pair_text. change (fun p : string * string => (py_repr (fst p) ++ ": " ++ py_repr (snd p))%string) with pair_text.
  destruct (dict_items d ltac:(intros; apply H; now right) (k, v)) as (t & Ht & E). rewrite <- E. unfold pair_text. cbn [fst snd].
  rewrite !sapp_assoc. destruct (H k v (or_introl eq_refl)). apply dict_n; auto using repr_literal.
Qed.

(** ** demo_graph_labeling *)
Lemma graph_program clk shuffle seconds nodes edges labels t l :
  is_graph nodes edges -> nodes <> [] -> NoDup labels -> shuffles shuffle -> Forall ascii_only nodes -> Forall ascii_only labels ->
  (exists fuel out, graph_demo clk shuffle fuel seconds nodes edges labels t l = Some (Ok out)) /\
  forall fuel r, graph_demo clk shuffle fuel seconds nodes edges labels t l = Some r ->
    exists out, r = Ok out /\ SpecPrint.reports (fun b d => exists text, d = [text] /\ is_dict b text) (proper_colouring nodes edges labels) t l out.
Proof.
  intros Hg Hn Hl Hs An Al. unfold graph_demo.
  destruct (demo_reports clk shuffle seconds (graph_init nodes edges labels) (graph_decode labels) _ (fun b => Ok [str_dict b]) (proper_colouring nodes edges labels) t l
    (graph_exact nodes edges labels Hg clk shuffle (Options None t l true) Hn Hl Hs)) as [H1 H2]; [eauto|].
  split; [exact H1|]. intros fuel r H. destruct (H2 fuel r H) as (out & -> & Ho). exists out. split; [reflexivity|].
  revert Ho. apply reports_impl. intros b d (Hb1 & Hb2 & _) [= <-]. exists (str_dict b). split; [reflexivity|]. apply str_dict_ok.
  rewrite Forall_forall in An, Al. intros k v Hkv. split; [apply An|apply Al; eauto]. rewrite <- Hb1. apply (in_map fst _ _ Hkv).
Qed.

(** ** demo_ascii_map_coloring *)
Lemma mapM_bind {A B C} (f : A -> res B) (g : B -> res C) l bs cs : mapM f l = Ok bs -> mapM g bs = Ok cs ->
  mapM (fun a => let! b := f a in g b) l = Ok cs.
Proof.
  revert bs cs. induction l as [|a l IH]; intros bs cs H G; simpl in H; [injection H as <-; exact G|].
  destruct (f a) as [b|] eqn:Ef; [|discriminate]. cbn [bind] in H. destruct (mapM f l) as [bs'|] eqn:Em; [|discriminate]. injection H as <-.
  simpl in G. destruct (g b) as [c|] eqn:Eg; [|discriminate]. cbn [bind] in G. destruct (mapM g bs') as [cs'|] eqn:Emg; [|discriminate]. injection G as <-.
  simpl. rewrite Ef. cbn [bind]. rewrite Eg. cbn [bind]. now rewrite (IH bs' cs' eq_refl Emg).
Qed.
Lemma map_text colored (m : list (list mcell)) : (forall row a c, In row m -> In (Some (a, c)) row -> exists s, colored a c = Ok s) ->
  exists text, print_map colored m = Ok text /\ draws_map (fun a c => match colored a c with Ok s => s | Err _ => ""%string end) m [text].
Proof.
  intros H. set (cell := fun c : mcell => match c with Some (a, color) => colored a color | None => Ok " "%string end).
  set (f := fun (a : ascii) (c : string) => match colored a c with Ok s => s | Err _ => ""%string end).
  assert (Hrow : forall row, In row m -> mapM cell row = Ok (map (fun c => match c with Some (a, color) => f a color | None => " "%string end) row)).
  { intros row Hr. specialize (H row). assert (H' := fun a c => H a c Hr). clear H Hr. induction row as [|c row IH]; [reflexivity|]. simpl.
    rewrite IH by (intros a d Hd; apply H'; now right). destruct c as [[a col]|]; [|reflexivity]. unfold cell at 1. destruct (H' a col (or_introl eq_refl)) as (s & Es).
    unfold f. rewrite Es. reflexivity. }
  assert (Hm : mapM (fun row => let! cells := mapM cell row in Ok (String.concat "" cells)) m =
    Ok (map (fun row => String.concat "" (map (fun c => match c with Some (a, color) => f a color | None => " "%string end) row)) m)).
  { clear H. induction m as [|row m IH]; [reflexivity|]. simpl. rewrite (Hrow row) by now left. cbn [bind]. rewrite IH by (intros; apply Hrow; now right). reflexivity. }
  change (exists text, (let! rows := mapM (fun row => let! cells := mapM cell row in Ok (String.concat "" cells)) m in Ok (sjoin (String newline "") rows)) = Ok text /\ draws_map f m [text]).
  rewrite Hm. cbn [bind]. eexists. split; [reflexivity|]. reflexivity.
Qed.
Lemma ascii_program clk shuffle order seconds colored lines groups colors gfuel t l :
  regions lines groups -> groups <> [] -> NoDup colors -> (forall a c, In c colors -> exists s, colored a c = Ok s) ->
  shuffles shuffle -> (forall ps, Permutation (order ps) ps) -> (List.length (concat lines) < gfuel)%nat ->
  (exists fuel out, ascii_demo clk shuffle fuel gfuel order seconds colored false lines colors t l = Some (Ok out)) /\
  forall fuel r, ascii_demo clk shuffle fuel gfuel order seconds colored false lines colors t l = Some r ->
    exists out, r = Ok out /\ SpecPrint.reports (draws_map (fun a c => match colored a c with Ok s => s | Err _ => ""%string end)) (map_colouring lines groups colors) t
      (match l with LNone => Solver.LNum 1 | _ => l end) out.
Proof.
  intros Hreg Hne Hc Hcol Hs Ho Hf. assert (He : exactly (fun fuel => ascii_run clk shuffle fuel gfuel order lines colors (Options None t l true)) (map_colouring lines groups colors) t
    (match l with Solver.LNone => Solver.LNum 1 | _ => l end)).
  { pose proof (ascii_exact clk shuffle order lines groups colors (Options None t l true) gfuel Hreg Hne Hc Hs Ho Hf) as He. destruct l; exact He. }
  unfold ascii_demo. unfold ascii_run in He.
  destruct (ascii_groups gfuel order lines) as [[gs|ex]|]; [| |destruct He as [(fuel & out & E) _]; discriminate].
  2: { destruct He as [_ He]. destruct (He 0%nat _ _ _ eq_refl) as [E _]. discriminate. }
  set (init := graph_init (map_nodes gs) (map_edges gs) colors) in *.
  set (decode := fun (variables : dict name) (s : subst) => let! sol := graph_decode colors variables s in paint order sol 0 gs (blank_map lines)) in *.
  set (sv := options_solver ORDERED (ascii_options (Options None t l true))) in *.
  assert (He' : exactly (fun fuel => puzzle_run clk shuffle fuel init decode sv) (map_colouring lines groups colors) t (match l with Solver.LNone => Solver.LNum 1 | _ => l end)).
  { destruct He as [(fuel0 & out0 & H0) He]. split.
    - exists fuel0. unfold graph_run, puzzle_run in H0. fold init sv in H0. unfold puzzle_run. destruct (construct init) as [[obj e]|ex]; [|eauto].
      destruct (solve_all clk shuffle fuel0 e sv no_args) as [[[ys e'] r']|]; [|discriminate]. destruct (mapM (decode obj) ys); eauto.
    - intros fuel bs r i H. specialize (He fuel). unfold graph_run, puzzle_run in He. fold init sv in He. unfold puzzle_run in H.
      destruct (construct init) as [[obj e]|ex] eqn:Ec.
      + destruct (solve_all clk shuffle fuel e sv no_args) as [[[ys e'] r']|] eqn:Es; [|discriminate].
        destruct (mapM (graph_decode colors obj) ys) as [sols|ex] eqn:Em.
        * destruct (mapM (fun sol => paint order sol 0 gs (blank_map lines)) sols) as [ms|ex] eqn:Em'.
          -- unfold decode in H. rewrite (mapM_bind _ _ _ _ _ Em Em') in H. apply He. exact H.
          -- exfalso. destruct (He _ _ _ eq_refl) as [E _]. discriminate.
        * exfalso. destruct (He _ _ _ eq_refl) as [E _]. discriminate.
      + apply He. exact H. }
  assert (Hshow : forall m, map_colouring lines groups colors m -> forall row a c, In row m -> In (Some (a, c)) row -> exists s, colored a c = Ok s).
  { intros m (col & Hc1 & _ & _ & Hm & Hi) row a c Hrow Hac. apply Hcol.
    destruct (In_nth_error _ _ Hrow) as (r0 & Er). destruct (In_nth_error _ _ Hac) as (c0 & Ec).
    assert (Hat : at_cell m (Z.of_nat r0, Z.of_nat c0) (Some (a, c))) by (exists row; cbn [fst snd]; rewrite !Nat2Z.id; repeat split; try lia; assumption).
    destruct (Hi _ _ Hat) as (i & Hmem). pose proof (Hm i _ Hmem) as Hat'. destruct Hat as (w1 & _ & _ & A1 & A2), Hat' as (w2 & _ & _ & B1 & B2).
    rewrite A1 in B1. injection B1 as <-. rewrite A2 in B2. injection B2 as -> ->. apply Hc1. destruct Hmem as (g & Eg & _). apply nth_error_Some. congruence. }
  destruct (demo_reports clk shuffle seconds init decode sv (fun m => let! text := print_map colored m in Ok [text]) _ _ _ He') as [H1 H2].
  { intros m Hm. destruct (map_text colored m (Hshow m Hm)) as (text & E & _). rewrite E. cbn [bind]. eauto. }
  split; [exact H1|]. intros fuel r H. destruct (H2 fuel r H) as (out & -> & Hout). exists out. split; [reflexivity|].
  revert Hout. apply reports_impl. intros m d Hm Hd. destruct (map_text colored m (Hshow m Hm)) as (text & E & Hdr). rewrite E in Hd. injection Hd as <-. exact Hdr.
Qed.
Lemma ascii_program_file clk shuffle fuel gfuel order seconds colored lines colors t l :
  ascii_demo clk shuffle fuel gfuel order seconds colored true lines colors t l = Some (Err TypeError).
Proof. reflexivity. Qed.
