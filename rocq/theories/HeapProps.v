(** C89: the statements about the objects of a running [solve]. *)
From Verif Require Import HeapSolver SpecHeap HeapFacts.
Open Scope list_scope.
Open Scope Z_scope.

Lemma heap_current clk shuffle home dicts lists body e H sv a fuel :
  homes home H -> spare home H dicts lists -> changes_own dicts lists body ->
  outcomes (hloop clk shuffle home fuel body [] e H (KInit sv a)) =
  solve_all clk shuffle fuel (set_world e (current_world home H (e_world e))) sv a.
Proof.
  intros A B C. pose proof (hsolve_sim clk shuffle home dicts lists body e H sv a fuel A B C) as S.
  destruct (hloop clk shuffle home fuel body [] e H (KInit sv a)) as [[[[ys H2] e2] o]|]; symmetry; [apply S|exact S].
Qed.

Lemma current_same home H w : up_to_date home H w -> current_world home H w = w.
Proof.
  intros U. unfold current_world. destruct w as [cells nc con nk m]. destruct m as [vs cs so]. cbn in *.
  unfold set_model. cbn. f_equal. f_equal. unfold current_vars. rewrite <- (map_id vs) at 2. apply map_ext_in.
  intros [x [d|r]] Hx; cbn; [|reflexivity]. f_equal. f_equal. unfold object_of. destruct (dget home x) as [o|] eqn:E; [|reflexivity].
  exact (U x d o Hx E).
Qed.

Lemma heap_solutions clk shuffle home dicts lists body e H sv a fuel :
  homes home H -> up_to_date home H (e_world e) -> spare home H dicts lists -> changes_own dicts lists body ->
  outcomes (hloop clk shuffle home fuel body [] e H (KInit sv a)) = solve_all clk shuffle fuel e sv a.
Proof.
  intros A U B C. rewrite (heap_current clk shuffle home dicts lists body e H sv a fuel A B C), (current_same _ _ _ U), set_world_same. reflexivity.
Qed.

Lemma heap_new clk shuffle home dicts lists body e H sv a fuel ys H2 e2 o :
  homes home H -> spare home H dicts lists -> changes_own dicts lists body ->
  hloop clk shuffle home fuel body [] e H (KInit sv a) = Some (ys, H2, e2, o) ->
  NoDup (map fst ys) /\ (forall r, In r (map fst ys) -> (h_ndicts H <= r)%nat).
Proof.
  intros A B C E. pose proof (hsolve_sim clk shuffle home dicts lists body e H sv a fuel A B C) as S. rewrite E in S.
  destruct S as (_ & S1 & S2 & _). split; [exact S1|]. intros r Hr. apply S2. exact Hr.
Qed.

Lemma heap_frame clk shuffle home dicts lists body e H sv a fuel ys H2 e2 o :
  homes home H -> spare home H dicts lists -> changes_own dicts lists body ->
  hloop clk shuffle home fuel body [] e H (KInit sv a) = Some (ys, H2, e2, o) ->
  (forall r, (r < h_ndicts H)%nat -> ~ dicts r -> h_dicts H2 r = h_dicts H r) /\
  (forall r, (r < h_nlists H)%nat -> ~ lists r -> h_lists H2 r = h_lists H r).
Proof.
  intros A B C E. pose proof (hsolve_sim clk shuffle home dicts lists body e H sv a fuel A B C) as S. rewrite E in S.
  destruct S as (_ & _ & _ & S3 & S4 & _). auto.
Qed.

Lemma heap_kept clk shuffle home dicts lists body e H sv a fuel ys H2 e2 o :
  homes home H -> spare home H dicts lists -> changes_own dicts lists body ->
  (forall given K r, In r given -> h_dicts (body given K) r = h_dicts K r) ->
  hloop clk shuffle home fuel body [] e H (KInit sv a) = Some (ys, H2, e2, o) ->
  forall r s, In (r, s) ys -> h_dicts H2 r = s.
Proof.
  intros A B C K E r s Hr. pose proof (hsolve_sim clk shuffle home dicts lists body e H sv a fuel A B C) as S. rewrite E in S.
  destruct S as (_ & _ & _ & _ & _ & S5). exact (proj2 (S5 K) (r, s) Hr).
Qed.
