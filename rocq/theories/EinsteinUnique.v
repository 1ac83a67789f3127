(** The riddle has exactly one answer: a search that is proved to miss nothing. *)
From Verif Require Import Einstein SpecPuzzle SpecEinstein SpecSolve EinsteinFacts ExprFacts.
From Coq Require Import Lia.
Open Scope list_scope.
Open Scope Z_scope.

(** The lists of five different numbers from 1 to 5. *)
Definition digits : list Z := [1; 2; 3; 4; 5].
Definition fresh (v : Z) (l : list Z) : bool := negb (existsb (Z.eqb v) l).
Fixpoint choices (n : nat) : list (list Z) :=
  match n with
  | O => [[]]
  | S n' => flat_map (fun l => map (fun v => v :: l) (filter (fun v => fresh v l) digits)) (choices n')
  end.
Lemma choices_In : forall l, NoDup l -> (forall v, In v l -> 1 <= v <= 5) -> In l (choices (length l)).
Proof.
  induction l as [|v l IH]; intros Hnd Hr; [now left|]. inversion Hnd; subst. cbn [length choices]. apply in_flat_map. exists l. split; [apply IH; auto; intros u Hu; apply Hr; now right|].
  apply in_map_iff. exists v. split; [reflexivity|]. apply filter_In. split.
  - specialize (Hr v (or_introl eq_refl)). unfold digits. cbn. lia.
  - unfold fresh. destruct (existsb (Z.eqb v) l) eqn:E; [|reflexivity]. apply existsb_exists in E. destruct E as (u & Hu & E). apply Z.eqb_eq in E. subst u. contradiction.
Qed.

Definition at_ (l : list Z) (i : nat) : Z := nth i l 0.
Definition adj (i j : Z) : bool := (i =? j + 1) || (j =? i + 1).
Lemma adj_true i j : next_to i j -> adj i j = true.
Proof. unfold next_to, adj. intros [->| ->]; rewrite Z.eqb_refl; [reflexivity|apply Bool.orb_true_r]. Qed.

Definition perms : list (list Z) := choices 5.
(** A notation and not a function: the search must not evaluate the refused branches. *)
Local Notation if_list b l := (if b then l else []).
(** owner [o], color [c], drink [d], smoke [s], animal [a]. *)
Definition answers : list (list (list Z)) :=
  flat_map (fun o => if_list (at_ o 3 =? 1)
  (flat_map (fun c => if_list ((at_ o 0 =? at_ c 0) && (at_ c 1 + 1 =? at_ c 2) && adj (at_ o 3) (at_ c 4))
  (flat_map (fun d => if_list ((at_ o 2 =? at_ d 2) && (at_ c 1 =? at_ d 1) && (at_ d 3 =? 3))
  (flat_map (fun s => if_list ((at_ c 3 =? at_ s 2) && (at_ s 4 =? at_ d 4) && (at_ o 4 =? at_ s 1) && adj (at_ d 0) (at_ s 3))
  (flat_map (fun a => if_list ((at_ o 1 =? at_ a 1) && (at_ s 0 =? at_ a 2) && adj (at_ s 3) (at_ a 0) && adj (at_ s 2) (at_ a 3)) [[o; c; d; s; a]])
   perms)) perms)) perms)) perms)) perms.

Definition table (h : string -> string -> Z) : list (list Z) := map (fun kv : string * list string => map (h (fst kv)) (snd kv)) attributes.

Lemma in_if {A} (b : bool) (x : A) l : b = true -> In x l -> In x (if_list b l).
Proof. now intros ->. Qed.

Lemma row_perm h k vs : placement h -> In (k, vs) attributes -> In (map (h k) vs) perms.
Proof.
  intros Hp Hk. destruct (proj2 attributes_facts k vs Hk) as [Hnd Hl]. destruct (Hp k vs Hk) as [H1 H2].
  unfold perms. rewrite <- Hl, <- (map_length (h k)). apply choices_In.
  - clear Hl Hk. assert (G : forall l, (forall x, In x l -> In x vs) -> NoDup l -> NoDup (map (h k) l)); [|apply G; auto].
    induction l as [|x l IH]; intros Hin Hn; cbn; constructor; inversion Hn; subst.
    + intros C. apply in_map_iff in C. destruct C as (y & E & Hy). revert E. apply H2; [apply Hin; now right|apply Hin; now left|intros ->; contradiction].
    + apply IH; [intros y Hy; apply Hin; now right|assumption].
  - intros v Hv. apply in_map_iff in Hv. destruct Hv as (x & <- & Hx). now apply H1.
Qed.

Lemma answers_complete h : placement h -> statements h -> In (table h) answers.
Proof.
  intros Hp (S1 & S2 & S3 & S4 & S5 & S6 & S7 & S8 & S9 & S10 & S11 & S12 & S13 & S14 & S15).
  pose proof (row_perm h "owner" l_owner Hp ltac:(cbn; tauto)) as Ho. pose proof (row_perm h "color" l_color Hp ltac:(cbn; tauto)) as Hc.
  pose proof (row_perm h "drink" l_drink Hp ltac:(cbn; tauto)) as Hd. pose proof (row_perm h "smoke" l_smoke Hp ltac:(cbn; tauto)) as Hsm.
  pose proof (row_perm h "animal" l_animal Hp ltac:(cbn; tauto)) as Ha.
  apply adj_true in S10, S11, S14, S15. apply Z.eqb_eq in S1, S2, S3, S4, S5, S6, S7, S8, S9, S12, S13.
  unfold answers. apply in_flat_map. eexists. split; [exact Ho|]. apply in_if; [exact S9|].
  apply in_flat_map. eexists. split; [exact Hc|]. apply in_if; [cbn [at_ nth map l_owner l_color]; now rewrite S1, S4, S14|].
  apply in_flat_map. eexists. split; [exact Hd|]. apply in_if; [cbn [at_ nth map l_owner l_color l_drink]; now rewrite S3, S5, S8|].
  apply in_flat_map. eexists. split; [exact Hsm|]. apply in_if; [cbn [at_ nth map l_owner l_color l_drink l_smoke]; now rewrite S7, S12, S13, S15|].
  apply in_flat_map. eexists. split; [exact Ha|]. apply in_if; [cbn [at_ nth map l_owner l_color l_drink l_smoke l_animal]; now rewrite S2, S6, S10, S11|].
  now left.
Qed.

Definition the_table : list (list Z) := [[3; 5; 2; 1; 4]; [3; 4; 5; 1; 2]; [1; 4; 2; 3; 5]; [3; 4; 1; 2; 5]; [1; 5; 3; 2; 4]].
Lemma answers_one : answers = [the_table].
Proof. vm_compute. reflexivity. Qed.

Definition the_house (k v : string) : Z :=
  match find (fun p : (string * string) * Z => String.eqb k (fst (fst p)) && String.eqb v (snd (fst p)))
    (flat_map (fun kt : (string * list string) * list Z => map (fun vi : string * Z => ((fst (fst kt), fst vi), snd vi)) (combine (snd (fst kt)) (snd kt)))
       (combine attributes the_table)) with
  | Some p => snd p
  | None => 0
  end.

Lemma the_placement : placement the_house.
Proof.
  intros k vs Hk.
  assert (A : forallb (fun kv : string * list string => forallb (fun v => (1 <=? the_house (fst kv) v) && (the_house (fst kv) v <=? 5)
     && forallb (fun v' => implb (the_house (fst kv) v =? the_house (fst kv) v') (String.eqb v v')) (snd kv)) (snd kv)) attributes = true) by (vm_compute; reflexivity).
  rewrite forallb_forall in A. specialize (A _ Hk). cbn [fst snd] in A. rewrite forallb_forall in A. split.
  - intros v Hv. specialize (A v Hv). rewrite !Bool.andb_true_iff, !Z.leb_le in A. tauto.
  - intros v v' Hv Hv' Hne E. specialize (A v Hv). rewrite !Bool.andb_true_iff in A. destruct A as [_ A]. rewrite forallb_forall in A. specialize (A v' Hv').
    rewrite E, Z.eqb_refl in A. cbn in A. apply Hne. now apply String.eqb_eq.
Qed.
Lemma the_statements : statements the_house.
Proof. unfold statements, next_to. vm_compute. repeat split; auto. Qed.

Lemma house_unique h : placement h -> statements h -> forall k vs v, In (k, vs) attributes -> In v vs -> h k v = the_house k v.
Proof.
  intros Hp Hst. pose proof (answers_complete h Hp Hst) as H. rewrite answers_one in H. destruct H as [H|[]].
  assert (E : table the_house = the_table) by (vm_compute; reflexivity). rewrite <- E in H. unfold table in H. symmetry in H.
  intros k vs v Hk Hv. assert (G : forall kvs, map (fun kv : string * list string => map (h (fst kv)) (snd kv)) kvs = map (fun kv : string * list string => map (the_house (fst kv)) (snd kv)) kvs ->
    In (k, vs) kvs -> h k v = the_house k v); [|exact (G attributes H Hk)].
  induction kvs as [|[k' vs'] kvs IH]; intros F Hin; [contradiction|]. cbn [map fst snd] in F. injection F as F1 F2. destruct Hin as [Ek|Hin]; [|now apply IH].
  injection Ek as -> ->. clear - F1 Hv. induction vs as [|w vs IH]; [contradiction|]. cbn in F1. injection F1 as G1 G2. destruct Hv as [->|Hv]; [exact G1|now apply IH].
Qed.

Definition the_answer : list (Z * dict string) := zsol the_house.
Lemma unique_answer : riddle_answer the_answer /\ forall z, riddle_answer z -> z = the_answer.
Proof.
  split.
  - exists the_house. split; [exact the_placement|]. split; [exact the_statements|]. now apply (arrangement_iff the_house the_placement).
  - intros z (h & Hp & Hst & [Hz Hr]). apply (arrangement_iff the_house the_placement). split; [exact Hz|]. intros i row Hin.
    destruct (Hr i row Hin) as [H1 H2]. split; [exact H1|]. intros k v Hkv. destruct (H2 k v Hkv) as [(vs & Hk & Hv) E].
    split; [eauto|]. rewrite <- E. symmetry. now apply (house_unique h Hp Hst k vs v).
Qed.

Open Scope string_scope.
Definition the_answer_text : list (Z * list (string * string)) :=
  [(1, [("owner", "Norwegian"); ("color", "yellow"); ("drink", "water"); ("smoke", "Dunhill"); ("animal", "cats")]);
   (2, [("owner", "Dane"); ("color", "blue"); ("drink", "tea"); ("smoke", "Blend"); ("animal", "a horse")]);
   (3, [("owner", "English"); ("color", "red"); ("drink", "milk"); ("smoke", "Pall Mall"); ("animal", "birds")]);
   (4, [("owner", "German"); ("color", "green"); ("drink", "coffee"); ("smoke", "Prince"); ("animal", "a zebra")]);
   (5, [("owner", "Swede"); ("color", "white"); ("drink", "beer"); ("smoke", "Blue Master"); ("animal", "a dog")])].
Close Scope string_scope.

Lemma riddle_unique z : riddle_answer z <-> z = the_answer_text.
Proof.
  assert (E : the_answer = the_answer_text) by (vm_compute; reflexivity). rewrite <- E. destruct unique_answer as [H1 H2].
  split; [apply H2|]. intros ->. exact H1.
Qed.

Lemma only_answer clk shuffle fuel o bs r i : shuffles shuffle -> o_timeout o = LNone -> (forall n, o_limit o = Solver.LNum n -> 1 <= n) ->
  einstein_run clk shuffle fuel o = Some (bs, r, i) -> r = None /\ bs = [the_answer_text].
Proof.
  intros Hs Ht Hl H. destruct (einstein_exact clk shuffle o Hs) as [_ He]. destruct (He fuel bs r i H) as (H1 & H2 & H3 & H4 & H5 & H6 & H7).
  split; [exact H1|].
  assert (Hall : forall b, In b bs -> b = the_answer_text) by (intros b Hb; now apply riddle_unique, H2).
  assert (Hne : bs <> []).
  { destruct i as [[]|].
    - destruct (H5 eq_refl) as (n & E & Hn). specialize (Hl n E). intros ->. cbn in Hn. lia.
    - destruct (H6 eq_refl) as (t & E). congruence.
    - intros ->. apply (H4 eq_refl the_answer_text). now apply riddle_unique. }
  destruct bs as [|b [|b' bs]]; [contradiction| |].
  - now rewrite (Hall b (or_introl eq_refl)).
  - exfalso. inversion H3; subst. apply H9. rewrite (Hall b (or_introl eq_refl)), (Hall b' (or_intror (or_introl eq_refl))). now left.
Qed.
Lemma one_answer clk shuffle fuel o bs r i : shuffles shuffle -> o_timeout o = LNone -> (forall n, o_limit o = Solver.LNum n -> 1 <= n) ->
  einstein_run clk shuffle fuel o = Some (bs, r, i) -> r = None /\ exists z, bs = [z] /\ riddle_answer z.
Proof.
  intros Hs Ht Hl H. destruct (only_answer clk shuffle fuel o bs r i Hs Ht Hl H) as [H1 H2]. split; [exact H1|].
  exists the_answer_text. split; [exact H2|]. now apply riddle_unique.
Qed.
