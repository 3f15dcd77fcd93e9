(** The program as a whole: from the files and the command line to the solution file (C52, C53). *)
From Coq Require Import Ascii String List Arith NArith ZArith Bool Lia QArith Qround Lqa Permutation Sorted.
From Verif.Model Require Import Num Prelude Evaluate Individual Config Crossover Split Matrix Population
  LocalSearch World Schedule RuinRecreate Genetic Decomposition Text Parser Display ConfigFile Main.
From Verif.Spec Require Import Solution Library LocalSearch RuinRecreate Genetic Decomposition Instance Output ConfigFile Program.
From Verif.Proofs Require Import Lists QNum TextFacts ParserFacts ConfigFacts MatrixFacts GaQ Fleet RustLib DgaInv ProgramFacts.
From Verif.Properties Require Import P_Matrix P_RuinRecreate P_Genetic P_Decomposed P_Files P_Config.
Import ListNotations.
Open Scope nat_scope.

Lemma run_reached {N : Num} L p c E li md fuel w0 k : forall g w g' w',
  ga_reached L p c E li md fuel w0 g w -> solver_run L p c E li md fuel k g w = Ok (g', w') ->
  ga_reached L p c E li md fuel w0 g' w'.
Proof.
  induction k as [|k IH]; intros g w g' w' R; cbn [solver_run]; destruct (ga_terminated g).
  - intro H. injection H as <- <-. exact R.
  - discriminate.
  - intro H. injection H as <- <-. exact R.
  - destruct (ga_iterate L p c E li md fuel g w) as [[g1 w1]|e] eqn:EI; [|discriminate]. cbn [rbind]. intro H.
    exact (IH g1 w1 g' w' (gr_iterate _ _ _ _ _ _ _ _ _ _ _ _ R EI) H).
Qed.

Lemma dga_run_reached {N : Num} L p c E li fuel sqrt_ round_ lsort dm ms hashes w0 k : forall d w d' w',
  dga_reached L p c E li fuel sqrt_ round_ lsort dm ms hashes w0 d w ->
  dga_run L p c E li fuel sqrt_ round_ lsort dm ms hashes k d w = Ok (d', w') ->
  dga_reached L p c E li fuel sqrt_ round_ lsort dm ms hashes w0 d' w'.
Proof.
  induction k as [|k IH]; intros d w d' w' R; cbn [dga_run]; destruct (dga_terminated d).
  - intro H. injection H as <- <-. exact R.
  - discriminate.
  - intro H. injection H as <- <-. exact R.
  - destruct (dga_iterate L p c E li fuel sqrt_ round_ lsort dm ms hashes d w) as [[d1 w1]|e] eqn:EI; [|discriminate]. cbn [rbind]. intro H.
    refine (IH d1 w1 d' w' _ H). eapply dr_iterate; eauto.
Qed.

Section Program.
Variable L : lib.
Hypothesis library : lib_ok L.
Variable X : @outside NumQ.
Hypothesis functions : functions_ok X.
(** the file system, the configuration file and the command line *)
Variable read : text -> text.
Variable yaml : @value NumQ.
Variable cl : command_line.
Variable i : @instance NumQ.
Variable f : @fields NumQ.
Local Notation file := (read (cl_instance cl)).
Local Notation size := (length (in_nodes i)).
Local Notation dist := (instance_distance (x_sqrt X) (x_round X) i).
Local Notation demand := (instance_demand i).
Local Notation capacity := (in_cap i).
Hypothesis described : instance_file (fun w x => x_parse_f64 X w = Some x) i file.
Hypothesis readable : forall l, In l (lines_of file) -> x_utf8 X l = true.
Hypothesis reasonable : sensible (x_sqrt X) (x_round X) i.
Hypothesis accepted : main_config yaml cl = Ok f.
Hypothesis settings : settings_ok f size.
Hypothesis mode : not_decomposed f size \/ parts_ok (x_sqrt X) (x_round X) f i.

Local Lemma weights_size : forall w, in_weights i = Some w -> length w + 1 = size.
Proof.
  intros w HW. destruct described as (parts & lines & (d & cp & type & m1 & m2 & m3 & m4 & m5 & coords & demands & more & others & HD) & _).
  destruct HD as (_ & _ & _ & _ & _ & _ & _ & _ & HD & _). unfold weight_parts in HD. rewrite HW in HD.
  destruct HD as (_ & n1 & n2 & rows & _ & _ & HL & H2). rewrite <- (@Forall2_length _ _ _ _ _ H2).
  pose proof (se_nodes _ _ _ reasonable). lia.
Qed.

Local Lemma start : exists pa, parse (x_parse_f64 X) (x_utf8 X) file = Ok pa /\
  match context_new X pa f with
  | Ok x => started X i f x
  | Err e => exists name, name <> txt "bks" /\ has f name (VFloat None)
  end.
Proof.
  exists (the_parsed i). destruct (main_facts yaml cl f accepted) as (HC & _ & _ & HR). split.
  - pose proof (se_nodes _ _ _ reasonable). apply (C43_read_back NumQ); [exact described|lia|exact readable].
  - apply (context_ok X functions i reasonable weights_size f HC HR settings).
Qed.

(** A run of the genetic algorithm, or of the one with decomposition, has ended in the world [w]. *)
Definition ended (x : @context NumQ) (w : @world NumQ) : Prop :=
  (exists li g, ga_reached L (x_problem x) (x_config x) (x_env X) li (dm_max (x_dist x)) (x_fuel X) (x_world x) g w /\
     ga_st g = Terminated) \/
  (exists li ms d, dga_reached L (x_problem x) (x_config x) (x_env X) li (x_fuel X) (x_sqrt X) (x_round X) (x_sort X) (x_dist x) ms
     (x_hashes X) (x_world x) d w /\ d_st d = DTerminated).

Local Lemma parts x ms : started X i f x -> parts_ok (x_sqrt X) (x_round X) f i -> get_u64 f "decomposed_problem_min_size" = Ok ms ->
  decomposed_ok (x_problem x) (x_config x) ms /\ c_granularity (x_config x) < m_cols (cm_store (x_corr x)).
Proof.
  intros SD [(g & m & HG & HM & B1 & B2) PS] EM. destruct (main_facts yaml cl f accepted) as (HC & _ & _ & _).
  destruct (sd_config _ _ _ _ SD) as (nv & EC). destruct (config_of_fields f nv _ EC) as (_ & CG & _).
  rewrite (u64_has f HC _ _ HG) in CG. injection CG as CG. rewrite (u64_has f HC _ _ HM) in EM. injection EM as EM.
  destruct (so_granularity _ _ settings) as (g' & HG' & BG).
  assert (g' = g).
  { apply (lookup_has f) in HG; [|exact (conf_nodup f HC)]. apply (lookup_has f) in HG'; [|exact (conf_nodup f HC)]. congruence. }
  subst g'. rewrite (sd_cols _ _ _ _ SD), <- CG. split; [|lia]. constructor.
  - exact (sd_ok _ _ _ _ SD).
  - clear -SD PS. destruct PS as (top & T1 & T2). exists top. rewrite (sd_dim _ _ _ _ SD). split.
    + intros a b HA HB. rewrite (sd_dist _ _ _ _ SD a b HA HB). now apply T1.
    + assert (EL : route_load (p_demand (x_problem x)) (seq 1 (size - 1)) = route_load demand (seq 1 (size - 1))).
      { unfold route_load. f_equal. apply map_ext. exact (sd_demand _ _ _ _ SD). }
      rewrite EL. exact T2.
  - rewrite <- CG, <- EM. lia.
  - rewrite <- CG. lia.
Qed.

(** What is in the history when the solver returns. *)
Local Lemma outcome x w : started X i f x -> run_solver L X f x = Ok w ->
  ended x w /\
  exists is, recorded hist_new is (w_hist w) /\ Forall (record_under (x_problem x) (fun pen => 0 <= pen)%Q) is /\ improving is.
Proof.
  intros SD. unfold run_solver. destruct (main_facts yaml cl f accepted) as (HC & _ & _ & _).
  destruct (u64_ok f HC "decompose_limit" eq_refl) as (lim & EL). rewrite EL. cbn [rbind].
  destruct (u64_ok f HC "decomposed_problem_min_size" eq_refl) as (ms & EM). rewrite EM. cbn [rbind].
  destruct (u64_ok f HC "log_interval" eq_refl) as (li & ->). cbn [rbind].
  rewrite (sd_dim _ _ _ _ SD). destruct (lim <=? size - 1) eqn:CL.
  - assert (PK : parts_ok (x_sqrt X) (x_round X) f i).
    { destruct mode as [(z & HZ & BZ)|PK]; [|exact PK]. rewrite (u64_has f HC _ _ HZ) in EL. injection EL as <-. apply Nat.leb_le in CL. lia. }
    destruct (parts x ms SD PK EM) as [DC GC].
    destruct (dga_new (x_problem x) (x_config x) (cm_store (x_corr x)) (x_ls_hash X) (x_rr_hash X) (x_world x)) as [d w1] eqn:EN.
    destruct (dga_run L _ _ _ _ _ _ _ _ _ _ _ _ d w1) as [[d2 w2]|e] eqn:ER; [|discriminate]. cbn [rbind]. intro H. injection H as <-.
    pose proof (dr_new L _ _ (x_env X) li (x_fuel X) (x_sqrt X) (x_round X) (x_sort X) (x_dist x) ms (x_hashes X) _ _ _ _ _ _
      (sd_near _ _ _ _ SD) (sd_distinct _ _ _ _ SD) GC EN) as R0.
    pose proof (dga_run_reached L _ _ _ _ _ _ _ _ _ _ _ _ _ _ _ _ _ R0 ER) as R.
    split; [right; exists li, ms, d2; split; [exact R|exact (C56_run L _ _ _ _ _ _ _ _ _ _ _ _ _ _ _ _ ER)]|].
    destruct (sd_matrix _ _ _ _ SD) as (gd & DF). rewrite <- (sd_dim _ _ _ _ SD) in DF.
    destruct (P_Decomposed.reached_records L _ _ _ _ (dm_max (x_dist x)) _ _ _ _ _ _ _ gd library (sort_ok X functions) DF DC _ _ _ (sd_set _ _ _ _ SD) R) as (is & RE & FA & IM).
    exists is. split; [exact RE|]. split; [|exact IM]. eapply Forall_impl; [|exact FA].
    intros j (S & W & pen & v & [P1 _] & EV). split; [exact S|]. split; [exact W|]. exists pen, v. split; [exact P1|exact EV].
  - destruct (ga_new (x_problem x) (x_config x) (cm_store (x_corr x)) (x_ls_hash X) (x_rr_hash X) (x_world x)) as [g w1] eqn:EN.
    destruct (solver_run L _ _ _ _ _ _ _ g w1) as [[g2 w2]|e] eqn:ER; [|discriminate]. cbn [rbind]. intro H. injection H as <-.
    pose proof (gr_new L _ _ (x_env X) li (dm_max (x_dist x)) (x_fuel X) _ _ _ _ _ _ (sd_near _ _ _ _ SD) (sd_rows _ _ _ _ SD) EN) as R0.
    pose proof (run_reached L _ _ _ _ _ _ _ _ _ _ _ _ R0 ER) as R.
    destruct (P_Genetic.exact_records L _ _ _ _ _ _ _ _ _ library (sd_ok _ _ _ _ SD) (sd_set _ _ _ _ SD) R) as (is & RE & FA & IM & _).
    split; [left; exists li, g2; split; [exact R|]; exact (C33_run L _ _ _ _ _ _ _ _ _ _ _ ER)|].
    exists is. split; [exact RE|]. split; [|exact IM]. eapply Forall_impl; [|exact FA].
    intros j (S & W & pen & v & [P1 _] & EV). split; [exact S|]. split; [exact W|]. exists pen, v. split; [exact P1|exact EV].
Qed.

Local Open Scope Q_scope.

(** The solution in the file, in terms of the instance. *)
Definition written (routes : list (list nat)) (cost : Q) : Prop :=
  serves_all_once size routes /\ (forall r, In r routes -> r <> []) /\
  within_capacity demand capacity (1 # 1000000) routes /\
  exists pen, 0 <= pen /\ cost == total_penalized dist demand capacity pen routes /\
    total_length dist routes <= cost /\
    cost <= total_length dist routes + pen * (1 # 1000000) * inject_Z (Z.of_nat (length routes)).

Local Lemma penalized_used (d : nat -> nat -> Q) (dem : nat -> Q) (cap pen : Q) rs : d 0%nat 0%nat == 0 -> 0 < cap ->
  total_penalized d dem cap pen (used_routes rs) == total_penalized d dem cap pen rs.
Proof.
  intros H0 HC. unfold total_penalized, used_routes. induction rs as [|[|a r] rs IH]; [reflexivity| |]; cbn [filter map Qsum].
  - rewrite IH. change (route_penalized d dem cap pen []) with (d 0%nat 0%nat + 0 + pen * Qpos (0 - cap)). rewrite H0.
    unfold Qpos. destruct (Qle_bool (0 - cap) 0) eqn:E; [ring|]. exfalso. assert (A : 0 - cap <= 0) by lra. apply Qle_bool_iff in A. congruence.
  - now rewrite IH.
Qed.
Local Lemma penalized_ext (d d' : nat -> nat -> Q) (dem dem' : nat -> Q) (cap pen : Q) n rs : (1 <= n)%nat ->
  (forall a b, (a < n)%nat -> (b < n)%nat -> d a b == d' a b) -> (forall a, dem a = dem' a) ->
  serves_all_once n rs -> total_penalized d dem cap pen rs == total_penalized d' dem' cap pen rs.
Proof.
  intros H1 H HD HS.
  assert (HA : forall r a, In r rs -> In a r -> (a < n)%nat).
  { intros r a HR HA. assert (I : In a (concat rs)) by (apply in_concat; eauto). eapply Permutation_in in I; [|exact HS]. apply in_seq in I. lia. }
  clear HS. unfold total_penalized. induction rs as [|r rs IH]; [reflexivity|]. cbn [map Qsum]. rewrite IH by (intros; eapply HA; eauto; now right).
  unfold route_penalized, route_length, route_load. rewrite (map_ext dem dem' HD r).
  rewrite (walk_ext d d' n); [reflexivity|exact H|]. intros a [<-|I]; [lia|]. apply in_app_or in I as [I|[<-|[]]]; [|lia].
  apply (HA r); [now left|exact I].
Qed.

Local Lemma written_last x is : started X i f x -> Forall (record_under (x_problem x) (fun pen => 0 <= pen)) is ->
  forall l j, is = l ++ [j] -> exists cost : @F NumQ, penalized_cost j = Some cost /\ written (used_routes (i_pheno j)) cost.
Proof.
  intros SD FA l j ->. apply Forall_app in FA as [_ FA]. inversion FA as [|? ? (S & W & pen & v & P1 & EV & TV) _]; subst. clear FA.
  exists v. split; [exact EV|]. rewrite (sd_dim _ _ _ _ SD) in S. set (rs := i_pheno j) in *.
  pose proof (se_nodes _ _ _ reasonable) as S2.
  assert (D0 : dist 0%nat 0%nat == 0) by reflexivity.
  assert (S' : serves_all_once size (used_routes rs)) by (unfold serves_all_once; rewrite used_concat; exact S).
  assert (W' : within_capacity demand capacity (1 # 1000000) (used_routes rs)).
  { intros r Hr. apply used_in in Hr as [Hr _]. pose proof (W r Hr) as WR. rewrite (sd_cap _ _ _ _ SD) in WR.
    unfold route_load in *. rewrite (map_ext (p_demand (x_problem x)) demand (sd_demand _ _ _ _ SD)) in WR. exact WR. }
  assert (TV' : v == total_penalized dist demand capacity pen (used_routes rs)).
  { rewrite TV. rewrite (penalized_used dist demand capacity pen rs D0 (se_cap _ _ _ reasonable)).
    rewrite <- (sd_cap _ _ _ _ SD). apply (penalized_ext _ _ _ _ _ _ size); [lia|exact (sd_dist _ _ _ _ SD)|exact (sd_demand _ _ _ _ SD)|exact S]. }
  split; [exact S'|]. split; [intros r Hr; now apply used_in in Hr|]. split; [exact W'|].
  exists pen. split; [exact P1|]. split; [exact TV'|].
  assert (PB : forall rs, within_capacity demand capacity (1 # 1000000) rs ->
    total_length dist rs <= total_penalized dist demand capacity pen rs /\
    total_penalized dist demand capacity pen rs <= total_length dist rs + pen * (1 # 1000000) * inject_Z (Z.of_nat (length rs))).
  { intros rs0. exact (P_Genetic.penalized_bounds (@mkProblem NumQ 0 dist demand (fun _ => (0, 0)) capacity (fun _ => []) (fun _ _ => 0) (fun _ => 0) (fun _ => 0) (fun _ => 0%Z)) pen rs0 P1). }
  destruct (PB _ W') as [B1 B2]. change (@F NumQ) with Q in *. split; lra.
Qed.

(** Of a list of individuals each of which improved on the one before, the last is the best. *)
Local Lemma last_best is : Forall (fun j => exists v : Q, penalized_cost j = Some (v : @F NumQ)) is -> improving is ->
  forall l j (v : Q), is = l ++ [j] -> penalized_cost j = Some (v : @F NumQ) ->
  forall k (u : Q), In k is -> penalized_cost k = Some (u : @F NumQ) -> v <= u.
Proof.
  intros FA IM l. revert is FA IM. induction l as [|a l IH] using rev_ind; intros is FA IM j v -> EV k u HK EU.
  - destruct HK as [<-|[]]. rewrite EV in EU. injection EU as ->. apply Qle_refl.
  - rewrite <- app_assoc in *. cbn [app] in *. destruct (IM l a j []) as (x & y & EX & EY & LT); [reflexivity|].
    rewrite EV in EY. injection EY as <-. apply in_app_or in HK as [HK|[<-|[<-|[]]]].
    + assert (x <= u); [|lra]. apply (IH (l ++ [a])) with (j := a) (k := k); auto.
      * apply Forall_app in FA as [F1 F2]. inversion F2; subst. apply Forall_app. auto.
      * intros l1 b c l2 E. apply (IM l1 b c (l2 ++ [j])). change (l ++ [a; j]) with (l ++ [a] ++ [j]). rewrite app_assoc, E, <- app_assoc. reflexivity.
      * apply in_or_app. now left.
    + rewrite EX in EU. injection EU as ->. lra.
    + rewrite EV in EU. injection EU as ->. apply Qle_refl.
Qed.

(** What the program leaves behind.  The file at the path of [-s] (or output.sol) is empty or holds
    the text of one solution: every customer of the instance in exactly one of the numbered routes,
    no route above capacity (by 1e-6 or more), and the printed cost is the rounding of the length
    of these routes in the distances of the instance, plus the penalty for overloads below 1e-6.
    The file is empty only if the run, with or without decomposition, which ended in the world [w],
    recorded nothing; else no recorded solution was cheaper. *)
Theorem C52_solution_file out : program L X read yaml cl = Ok out ->
  exists pa x w content, parse (x_parse_f64 X) (x_utf8 X) file = Ok pa /\ context_new X pa f = Ok x /\
    ended x w /\
    out = Some (output_path cl, content) /\
    ((h_entries (w_hist w) = [] /\ content = []) \/
     exists routes (cost : Q) solution, content = solution ++ [LF] /\
       solution_text 1 routes (@fround NumQ cost) solution /\ written routes cost /\
       forall e, In e (h_entries (w_hist w)) -> exists v : Q, he_cost e = Some (v : @F NumQ) /\ cost <= v).
Proof.
  unfold program. intro H. rewrite accepted in H. cbn [rbind] in H.
  destruct (main_facts yaml cl f accepted) as (HC & HI & HS & _).
  rewrite (string_has f HC _ _ HI) in H. cbn [rbind] in H. destruct start as (pa & EP & HX). rewrite EP in H. cbn [rbind] in H.
  destruct (context_new X pa f) as [x|e] eqn:EX; [|discriminate H]. cbn [rbind] in H.
  destruct (run_solver L X f x) as [w|e] eqn:ER; [|discriminate H]. cbn [rbind] in H.
  rewrite (opt_string_has f HC _ _ HS) in H. cbn [rbind] in H. injection H as <-.
  exists pa, x, w. eexists. split; [exact EP|]. split; [exact EX|]. destruct (outcome x w HX ER) as (RT & is & RE & FA & IM).
  split; [exact RT|]. split; [reflexivity|]. unfold recorded in RE. rewrite RE.
  destruct (C44_file NumQ (fold_left hist_add is hist_new)) as [F1 F2].
  destruct is as [|j is _] using rev_ind; [left; split; [reflexivity|apply F2; reflexivity]|right].
  destruct (written_last x (is ++ [j]) HX FA is j eq_refl) as (cost & EC & WR).
  destruct (F1 _ _ cost (recorded_entries is j) EC) as (t & ET & TX).
  exists (used_routes (i_pheno j)), cost, t. split; [exact ET|]. split; [exact TX|]. split; [exact WR|].
  assert (FC : Forall (fun j => exists v : Q, penalized_cost j = Some (v : @F NumQ)) (is ++ [j])).
  { eapply Forall_impl; [|exact FA]. intros k (_ & _ & pen & v & _ & EV & _). eauto. }
  intros e HE. rewrite recorded_entries in HE.
  assert (K : exists k, In k (is ++ [j]) /\ he_cost e = penalized_cost k).
  { apply in_app_or in HE as [HE|[<-|[]]].
    - apply in_map_iff in HE as (k & <- & HK). exists k. split; [apply in_or_app; now left|reflexivity].
    - exists j. split; [apply in_or_app; right; now left|reflexivity]. }
  destruct K as (k & HK & EK). rewrite Forall_forall in FC. destruct (FC k HK) as (v & EV). exists v. split; [congruence|].
  apply (last_best (is ++ [j])) with (l := is) (j := j) (k := k); auto. apply Forall_forall. exact FC.
Qed.

(** With integral demands and capacity no route is above capacity at all, and the number in the
    line "Cost" is exactly the length of the routes in the file. *)
Theorem C52_solution_file_integral out : program L X read yaml cl = Ok out ->
  (forall a, (a < size)%nat -> integer (demand a)) -> integer capacity -> (forall x, integer (x_round X x)) ->
  exists content, out = Some (output_path cl, content) /\
    (content = [] \/
     exists routes cost solution, content = solution ++ [LF] /\ solution_text 1 routes cost solution /\
       serves_all_once size routes /\ (forall r, In r routes -> r <> []) /\
       (forall r, In r routes -> route_load demand r <= capacity) /\
       inject_Z (Z.of_nat cost) == total_length dist routes).
Proof.
  intros H HD [zc HC] HR. destruct (C52_solution_file out H) as (pa & x & w & content & _ & _ & _ & -> & R). exists content. split; [reflexivity|].
  destruct R as [[_ ->]|(routes & cost & solution & -> & TX & (S & NE & W & pen & P1 & EC & B1 & B2) & _)]; [now left|right].
  exists routes, (@fround NumQ cost), solution. split; [reflexivity|]. split; [exact TX|]. split; [exact S|]. split; [exact NE|].
  assert (HA : forall r a, In r routes -> In a r -> (a < size)%nat).
  { intros r a Hr Ha. assert (I : In a (concat routes)) by (apply in_concat; eauto). eapply Permutation_in in I; [|exact S]. apply in_seq in I.
    pose proof (se_nodes _ _ _ reasonable). lia. }
  assert (HL : forall r, In r routes -> route_load demand r <= capacity).
  { intros r Hr. assert (Z : integer (route_load demand r)).
    { assert (HA' : forall a, In a r -> (a < size)%nat) by (intros a; now apply HA). clear -HD HA'. unfold route_load.
      induction r as [|a r IH]; [exists 0%Z; reflexivity|]. destruct IH as [z EZ]; [intros b Hb; apply HA'; now right|].
      destruct (HD a) as [y EY]; [apply HA'; now left|]. exists (y + z)%Z. cbn [map Qsum]. rewrite inject_Z_plus, EZ, EY. reflexivity. }
    destruct Z as [z EZ]. pose proof (W r Hr) as WR. rewrite EZ, HC in WR |- *. rewrite <- Zle_Qle.
    assert (LT : inject_Z z < inject_Z (zc + 1)).
    { rewrite inject_Z_plus. change (inject_Z 1) with 1. lra. }
    rewrite <- Zlt_Qlt in LT. lia. }
  split; [exact HL|].
  assert (EQ : cost == total_length dist routes).
  { rewrite EC. clear -HL. unfold total_penalized, total_length. induction routes as [|r rs IH]; [reflexivity|]. cbn [map Qsum].
    rewrite IH by (intros; apply HL; now right). unfold route_penalized.
    assert (LE : route_load demand r <= capacity) by (apply HL; now left).
    unfold Qpos. destruct (Qle_bool (route_load demand r - capacity) 0) eqn:E; [ring|]. exfalso.
    assert (A : route_load demand r - capacity <= 0) by lra. apply Qle_bool_iff in A. congruence. }
  assert (IT : integer (total_length dist routes)).
  { assert (ID : forall a b, integer (dist a b)).
    { intros a b. unfold instance_distance. destruct (a =? b)%nat; [exists 0%Z; reflexivity|apply HR]. }
    assert (IW : forall l, integer (walk_length dist l)).
    { induction l as [|a [|b l] IH]; try (exists 0%Z; reflexivity). destruct IH as [z EZ], (ID a b) as [y EY]. exists (y + z)%Z.
      change (walk_length dist (a :: b :: l)) with (dist a b + walk_length dist (b :: l)). rewrite inject_Z_plus, EZ, EY. reflexivity. }
    unfold total_length. clear -IW. induction routes as [|r rs [z EZ]]; [exists 0%Z; reflexivity|]. destruct (IW (0%nat :: r ++ [0%nat])) as [y EY].
    exists (y + z)%Z. cbn [map Qsum]. unfold route_length at 1. rewrite inject_Z_plus, EZ, EY. reflexivity. }
  assert (NN : 0 <= cost).
  { rewrite EQ. assert (IW : forall l, (forall a, In a l -> (a < size)%nat) -> 0 <= walk_length dist l).
    { induction l as [|a [|b l] IH]; intros HB; try apply Qle_refl.
      change (walk_length dist (a :: b :: l)) with (dist a b + walk_length dist (b :: l)).
      assert (0 <= walk_length dist (b :: l)) by (apply IH; intros; apply HB; now right).
      assert (0 <= dist a b) by (apply (dist_pos X functions i reasonable weights_size); apply HB; cbn [In]; auto). lra. }
    unfold total_length. pose proof (se_nodes _ _ _ reasonable) as S2. clear -IW HA S2. induction routes as [|r rs IH]; [apply Qle_refl|]. cbn [map Qsum].
    assert (0 <= route_length dist r).
    { apply IW. intros a [<-|I]; [lia|]. apply in_app_or in I as [I|[<-|[]]]; [|lia]. apply (HA r); [now left|exact I]. }
    assert (0 <= Qsum (map (route_length dist) rs)) by (apply IH; intros; eapply HA; eauto; now right). lra. }
  destruct IT as [z EZ]. rewrite EZ in EQ |- *. pose proof (C44_rounded cost NN) as [R1 R2].
  set (n := Z.of_nat (@fround NumQ cost)) in *. clearbody n. rewrite EQ in R1, R2.
  assert (L1 : inject_Z n < inject_Z (z + 1)) by (rewrite inject_Z_plus; change (inject_Z 1) with 1; lra).
  assert (L2 : inject_Z z < inject_Z (n + 1)) by (rewrite inject_Z_plus; change (inject_Z 1) with 1; lra).
  rewrite <- Zlt_Qlt in L1, L2. assert (n = z) by lia. subst. reflexivity.
Qed.

Local Close Scope Q_scope.

(** The program does not panic or index out of bounds, on any sensible instance with any accepted
    configuration that is not degenerate: it writes the file, or it is still in one of its loops
    when the bound on their lengths is reached. *)
Theorem C53_no_panic : not_decomposed f size -> populated f -> finite_settings f ->
  (exists content, program L X read yaml cl = Ok (Some (output_path cl, content))) \/
  program L X read yaml cl = Err EFuel.
Proof.
  intros whole PO FI. unfold program. rewrite accepted. cbn [rbind]. destruct (main_facts yaml cl f accepted) as (HC & HI & HS & _).
  rewrite (string_has f HC _ _ HI). cbn [rbind]. destruct start as (pa & EP & HX). rewrite EP. cbn [rbind].
  destruct (context_new X pa f) as [x|e]; [|destruct HX as (n & NB & HN); destruct (FI n NB HN)]. cbn [rbind].
  assert (R : (exists w, run_solver L X f x = Ok w) \/ run_solver L X f x = Err EFuel).
  { unfold run_solver. destruct whole as (z & HZ & BZ). rewrite (u64_has f HC _ _ HZ). cbn [rbind].
    destruct (u64_ok f HC "decomposed_problem_min_size" eq_refl) as (ms & ->). cbn [rbind].
    destruct (u64_ok f HC "log_interval" eq_refl) as (li & ->). cbn [rbind].
    rewrite (sd_dim _ _ _ _ HX). destruct (Z.to_nat z <=? size - 1) eqn:EL; [apply Nat.leb_le in EL; lia|].
    destruct (ga_new (x_problem x) (x_config x) (cm_store (x_corr x)) (x_ls_hash X) (x_rr_hash X) (x_world x)) as [g w1] eqn:EN.
    pose proof (gr_new L _ _ (x_env X) li (dm_max (x_dist x)) (x_fuel X) _ _ _ _ _ _ (sd_near _ _ _ _ HX) (sd_rows _ _ _ _ HX) EN) as R0.
    destruct (sd_config _ _ _ _ HX) as (nv & EC). destruct (config_of_fields f nv _ EC) as (_ & _ & _ & _ & F1 & F2 & F3 & F4 & _).
    assert (POS : forall name n, In (txt name) [txt "num_diversity_closest"; txt "min_population_size"; txt "initial_individuals"; txt "tournament_size"] ->
              get_u64 f name = Ok n -> 1 <= n).
    { intros name n HIn EG. destruct (PO _ HIn) as (y & HY & BY). rewrite (u64_has f HC _ _ HY) in EG. injection EG as <-. lia. }
    assert (Q1 : 1 <= c_num_diversity_closest (x_config x)) by (apply (POS "num_diversity_closest"%string); [cbn [In]; auto|exact F1]).
    assert (Q2 : 1 <= c_min_population_size (x_config x)) by (apply (POS "min_population_size"%string); [cbn [In]; auto|exact F2]).
    assert (Q3 : 1 <= c_initial_individuals (x_config x)) by (apply (POS "initial_individuals"%string); [cbn [In]; auto|exact F3]).
    assert (Q4 : 1 <= c_tournament_size (x_config x)) by (apply (POS "tournament_size"%string); [cbn [In]; auto|exact F4]).
    assert (RUN : forall k g w, ga_reached L (x_problem x) (x_config x) (x_env X) li (dm_max (x_dist x)) (x_fuel X) (x_world x) g w ->
      (exists g' w', solver_run L (x_problem x) (x_config x) (x_env X) li (dm_max (x_dist x)) (x_fuel X) k g w = Ok (g', w')) \/
      solver_run L (x_problem x) (x_config x) (x_env X) li (dm_max (x_dist x)) (x_fuel X) k g w = Err EFuel).
    { induction k as [|k IH]; intros g1 w2 R1; cbn [solver_run]; destruct (ga_terminated g1); eauto.
      destruct (C51_no_panic L _ _ _ _ _ _ _ _ _ library (sd_ok _ _ _ _ HX) Q1 Q2 Q3 Q4 (sd_set _ _ _ _ HX) R1) as [(g2 & w3 & EI)|EI]; rewrite EI; cbn [rbind]; [|now right].
      apply IH. exact (gr_iterate _ _ _ _ _ _ _ _ _ _ _ _ R1 EI). }
    destruct (RUN (x_fuel X) g w1 R0) as [(g' & w' & EG)|EG]; rewrite EG; cbn [rbind]; [left; eexists; reflexivity|now right]. }
  destruct R as [(w & ->)| ->]; cbn [rbind]; [left|now right].
  rewrite (opt_string_has f HC _ _ HS). cbn [rbind]. eexists. reflexivity.
Qed.

(** With decomposition there is one more outcome: a panic in a round that starts from a solution
    above the capacity, or whose merged solution has not one route per vehicle.  Missing for the
    full claim: these panics, which do happen (C55_infeasible_refuted, C55_misfit_refuted). *)
Theorem C53_decomposed_partial : parts_ok (x_sqrt X) (x_round X) f i -> populated f -> finite_settings f ->
  (exists content, program L X read yaml cl = Ok (Some (output_path cl, content))) \/
  program L X read yaml cl = Err EFuel \/
  program L X read yaml cl = Err EPanic /\
  exists pa x li ms d w, parse (x_parse_f64 X) (x_utf8 X) file = Ok pa /\ context_new X pa f = Ok x /\
    dga_reached L (x_problem x) (x_config x) (x_env X) li (x_fuel X) (x_sqrt X) (x_round X) (x_sort X) (x_dist x) ms
      (x_hashes X) (x_world x) d w /\ d_st d = DCycle /\
    (~ within_capacity demand capacity (1 # 1000000) (i_pheno (d_sol d)) \/
     misfit L (x_problem x) (x_config x) (x_env X) li (x_fuel X) (x_sqrt X) (x_round X) (x_sort X) (x_dist x) ms
       (x_hashes X) d (snd (terminate (x_config x) (x_env X) w))).
Proof.
  intros PK PO FI. destruct (main_facts yaml cl f accepted) as (HC & HI & HS & _).
  destruct (u64_ok f HC "decompose_limit" eq_refl) as (lim & EL).
  destruct (lim <=? size - 1) eqn:CL.
  2:{ apply Nat.leb_gt in CL. assert (whole : not_decomposed f size).
      { destruct (get_u64_has f HC _ _ EL) as (z & HZ & EZ). exists z. split; [exact HZ|]. lia. }
      destruct (C53_no_panic whole PO FI) as [R|R]; [now left|right; now left]. }
  unfold program. rewrite accepted. cbn [rbind].
  rewrite (string_has f HC _ _ HI). cbn [rbind]. destruct start as (pa & EP & HX). rewrite EP. cbn [rbind].
  destruct (context_new X pa f) as [x|e] eqn:EX; [|destruct HX as (n & NB & HN); destruct (FI n NB HN)]. cbn [rbind].
  unfold run_solver. rewrite EL. cbn [rbind].
  destruct (u64_ok f HC "decomposed_problem_min_size" eq_refl) as (ms & EM). rewrite EM. cbn [rbind].
  destruct (u64_ok f HC "log_interval" eq_refl) as (li & ->). cbn [rbind].
  rewrite (sd_dim _ _ _ _ HX), CL. destruct (parts x ms HX PK EM) as [DC GC].
  destruct (dga_new (x_problem x) (x_config x) (cm_store (x_corr x)) (x_ls_hash X) (x_rr_hash X) (x_world x)) as [d0 w1] eqn:EN.
  pose proof (dr_new L _ _ (x_env X) li (x_fuel X) (x_sqrt X) (x_round X) (x_sort X) (x_dist x) ms (x_hashes X) _ _ _ _ _ _
      (sd_near _ _ _ _ HX) (sd_distinct _ _ _ _ HX) GC EN) as R0.
  destruct (sd_matrix _ _ _ _ HX) as (gd & DF). rewrite <- (sd_dim _ _ _ _ HX) in DF.
  destruct (sd_config _ _ _ _ HX) as (nv & EC). destruct (config_of_fields f nv _ EC) as (_ & _ & _ & _ & F1 & F2 & F3 & F4 & _).
  assert (POS : forall name n, In (txt name) [txt "num_diversity_closest"; txt "min_population_size"; txt "initial_individuals"; txt "tournament_size"] ->
            get_u64 f name = Ok n -> 1 <= n).
  { intros name n HIn EG. destruct (PO _ HIn) as (y & HY & BY). rewrite (u64_has f HC _ _ HY) in EG. injection EG as <-. lia. }
  assert (Q1 : 1 <= c_num_diversity_closest (x_config x)) by (apply (POS "num_diversity_closest"%string); [cbn [In]; auto|exact F1]).
  assert (Q2 : 1 <= c_min_population_size (x_config x)) by (apply (POS "min_population_size"%string); [cbn [In]; auto|exact F2]).
  assert (Q3 : 1 <= c_initial_individuals (x_config x)) by (apply (POS "initial_individuals"%string); [cbn [In]; auto|exact F3]).
  assert (Q4 : 1 <= c_tournament_size (x_config x)) by (apply (POS "tournament_size"%string); [cbn [In]; auto|exact F4]).
  assert (RUN : forall k d w, dga_reached L (x_problem x) (x_config x) (x_env X) li (x_fuel X) (x_sqrt X) (x_round X) (x_sort X) (x_dist x) ms
      (x_hashes X) (x_world x) d w ->
    match dga_run L (x_problem x) (x_config x) (x_env X) li (x_fuel X) (x_sqrt X) (x_round X) (x_sort X) (x_dist x) ms (x_hashes X) k d w with
    | Ok _ => True
    | Err e => e = EFuel \/ e = EPanic /\ exists d w,
        dga_reached L (x_problem x) (x_config x) (x_env X) li (x_fuel X) (x_sqrt X) (x_round X) (x_sort X) (x_dist x) ms
          (x_hashes X) (x_world x) d w /\ d_st d = DCycle /\
        (~ within_capacity demand capacity (1 # 1000000) (i_pheno (d_sol d)) \/
         misfit L (x_problem x) (x_config x) (x_env X) li (x_fuel X) (x_sqrt X) (x_round X) (x_sort X) (x_dist x) ms
           (x_hashes X) d (snd (terminate (x_config x) (x_env X) w)))
    end).
  { induction k as [|k IH]; intros d w R; cbn [dga_run]; destruct (dga_terminated d); auto.
    destruct (C55_panics_partial L _ _ _ li (dm_max (x_dist x)) (x_fuel X) _ _ _ _ ms (x_hashes X) gd library (sort_ok X functions) DF DC _ _ _
      (sd_set _ _ _ _ HX) R Q1 Q2 Q3 Q4) as [(d' & w' & EI)|[EI|(EI & ST & Y)]]; rewrite EI; cbn [rbind].
    - apply IH. eapply dr_iterate; eauto.
    - now left.
    - right. split; [reflexivity|]. exists d, w. split; [exact R|]. split; [exact ST|].
      destruct Y as [Y|Y]; [left|right; exact Y]. intro W. apply Y. intros r Hr. specialize (W r Hr).
      assert (E1 : route_load (p_demand (x_problem x)) r = route_load demand r).
      { unfold route_load. f_equal. apply map_ext. exact (sd_demand _ _ _ _ HX). }
      rewrite E1, (sd_cap _ _ _ _ HX). exact W. }
  specialize (RUN (x_fuel X) d0 w1 R0).
  destruct (dga_run L _ _ _ _ _ _ _ _ _ _ _ _ d0 w1) as [[d' w']|e]; cbn [rbind].
  - left. rewrite (opt_string_has f HC _ _ HS). cbn [rbind]. eexists. reflexivity.
  - right. destruct RUN as [->|[-> (d & w & R & ST & Y)]]; [now left|right]. split; [reflexivity|].
    exists pa, x, li, ms, d, w. auto 10.
Qed.
End Program.
Print Assumptions C52_solution_file.
Print Assumptions C52_solution_file_integral.
Print Assumptions C53_no_panic.
Print Assumptions C53_decomposed_partial.

(** ** Example: a run on a file, down to the text of the solution file *)
Open Scope Q_scope.
Definition pr_instance : @instance NumQ :=
  @mkInstance NumQ 10 [(0, 0, 0); (3, 4, 4); (6, 8, 5); (7, 0, 3); (0, 9, 6); (2, 2, 2)] None.
Definition pr_sqrt (x : Q) : Q := Z.sqrt (Qfloor (x * inject_Z (10 ^ 12))) # 1000000.
Definition pr_round (x : Q) : Q := inject_Z (Qfloor (x + (1 # 2))).
Definition pr_outside (fuel : nat) : @outside NumQ := @mkOutside NumQ read_int any_text pr_sqrt pr_round
  (fun l : list (nat * Q) => isort (fun a b => Qle_bool (snd a) (snd b)) l)
  (fun y x => if Qle_bool 0 y then y / (Qabs.Qabs x + Qabs.Qabs y + 1) else 2) (fun x => x - 1)
  (fun d => Z.of_N (d mod 1000) # 1000) (fun y x => Qfloor (y * 1000 + x))
  (@mkEnv NumQ (fun x => 1 + x / 2) (fun k => inject_Z (Z.of_nat k)))
  (fun seed => match seed with Some s => rr_stream (N.of_nat s) 3 | None => rr_stream 5 11 end)
  (rr_stream 3 5) (rr_stream 7 1) (fun _ => (rr_stream 1 2, rr_stream 3 4, rr_stream 5 6)) fuel.
Close Scope Q_scope.
Definition pr_lines : list text :=
  [txt "NAME : program"; txt "TYPE : CVRP"; txt "DIMENSION : 6"; txt "EDGE_WEIGHT_TYPE : EUC_2D"; txt "CAPACITY : 10";
   txt "NODE_COORD_SECTION"; txt "1 0 0"; txt "2 3 4"; txt "3 6 8"; txt "4 7 0"; txt "5 0 9"; txt "6 2 2";
   txt "DEMAND_SECTION"; txt "1 0"; txt "2 4"; txt "3 5"; txt "4 3"; txt "5 6"; txt "6 2"; txt "DEPOT_SECTION"; txt "1"; txt "-1"; txt "EOF"].
Definition pr_file : text := join true pr_lines.
Definition pr_yaml : @value NumQ := VMap
  (let key (s : string) (v : @value NumQ) : @value NumQ * @value NumQ := (@VString NumQ (txt s), v) in
   [key "deterministic" (VBool true); key "seed" (VInt 7); key "max_iterations" (VInt 4);
    key "min_population_size" (VInt 2); key "initial_individuals" (VInt 3); key "population_lambda" (VInt 2);
    key "num_elites" (VInt 1); key "num_diversity_closest" (VInt 2); key "local_search_granularity" (VInt 3);
    key "penalty_update_interval" (VInt 2); key "average_ruin_cardinality" (VInt 3); key "max_ruin_string_length" (VInt 3);
    key "rr_gamma" (VInt 1)])%string.
Definition pr_cl : command_line := mkCL (txt "a.vrp") (Some (txt "a.sol")) None (Some (txt "60")) None.
Definition pr_read (path : text) : text := if text_eqb path (txt "a.vrp") then pr_file else [].

Definition pr_view (r : res (option (text * text))) :=
  match r with Ok (Some (path, content)) => Some (string_of_list_ascii path, string_of_list_ascii content) | _ => None end.
Example pr_run : pr_view (@program NumQ rust_lib (pr_outside 60) pr_read pr_yaml pr_cl) = Some ("a.sol", "Route #1: 5 2 3
Route #2: 4 1
Cost 45
")%string.
Proof. vm_compute. reflexivity. Qed.

(** The hypotheses hold of it. *)
Fact pr_functions fuel : functions_ok (pr_outside fuel).
Proof.
  constructor; cbn [pr_outside x_sqrt x_round x_sort x_real].
  - intros x y H. unfold pr_sqrt. assert (E : Qfloor (x * inject_Z (10 ^ 12)) = Qfloor (y * inject_Z (10 ^ 12))) by (apply Qfloor_comp; now rewrite H).
    now rewrite E.
  - reflexivity.
  - intros x H. unfold pr_sqrt, Qle. cbn [Qnum Qden]. pose proof (Z.sqrt_nonneg (Qfloor (x * inject_Z (10 ^ 12)))). lia.
  - intros x y H. unfold pr_round. assert (E : Qfloor (x + (1 # 2)) = Qfloor (y + (1 # 2))) by (apply Qfloor_comp; now rewrite H). now rewrite E.
  - reflexivity.
  - intros x H. unfold pr_round. change 0%Q with (inject_Z (Qfloor 0)) at 1. rewrite <- Zle_Qle. apply Qfloor_resp_le. lra.
  - intro l. split; [apply isort_perm|].
    assert (S : StronglySorted (fun a b : nat * Q => Qle_bool (snd a) (snd b) = true) (isort (fun a b : nat * Q => Qle_bool (snd a) (snd b)) l)).
    { apply (isort_sorted _ (fun _ => True)).
      - intros a b _ _. rewrite !Qle_bool_iff. destruct (Qlt_le_dec (snd b) (snd a)) as [A|A]; [right; lra|now left].
      - intros a b c _ _ _ H1 H2. apply Qle_bool_iff in H1, H2. apply Qle_bool_iff. lra.
      - apply Forall_forall. auto. }
    induction S as [|a l' S' IH FA]; constructor; auto. eapply Forall_impl; [|exact FA]. intros b H. now apply Qle_bool_iff.
  - intro x. assert (x mod 1000 < 1000)%N by (apply N.mod_lt; discriminate).
    generalize dependent (x mod 1000)%N. intros y H. unfold Qle, Qlt. cbn [Qnum Qden]. lia.
Qed.

Definition pr_parts : list part :=
  [Other [txt "NAME"; txt "program"]; Other [txt "TYPE"; txt "CVRP"]; Header (txt "DIMENSION") (txt "6") [];
   Header (txt "EDGE_WEIGHT_TYPE") (txt "EUC_2D") []; Header (txt "CAPACITY") (txt "10") [];
   Section_ (txt "NODE_COORD_SECTION") [] [[txt "1"; txt "0"; txt "0"]; [txt "2"; txt "3"; txt "4"]; [txt "3"; txt "6"; txt "8"];
     [txt "4"; txt "7"; txt "0"]; [txt "5"; txt "0"; txt "9"]; [txt "6"; txt "2"; txt "2"]];
   Section_ (txt "DEMAND_SECTION") [] [[txt "1"; txt "0"]; [txt "2"; txt "4"]; [txt "3"; txt "5"]; [txt "4"; txt "3"]; [txt "5"; txt "6"]; [txt "6"; txt "2"]];
   Other [txt "DEPOT_SECTION"]; Other [txt "1"]; Other [txt "-1"]; Other [txt "EOF"]].
Fact pr_described : instance_file (fun w x => read_int w = Some x) pr_instance pr_file.
Proof.
  exists pr_parts, pr_lines. split; [|split].
  - exists (txt "6"), (txt "10"), (txt "EUC_2D"), [], [], [], [], [].
    exists [[txt "1"; txt "0"; txt "0"]; [txt "2"; txt "3"; txt "4"]; [txt "3"; txt "6"; txt "8"];
       [txt "4"; txt "7"; txt "0"]; [txt "5"; txt "0"; txt "9"]; [txt "6"; txt "2"; txt "2"]],
      [[txt "1"; txt "0"]; [txt "2"; txt "4"]; [txt "3"; txt "5"]; [txt "4"; txt "3"]; [txt "5"; txt "6"]; [txt "6"; txt "2"]].
    exists [], [Other [txt "NAME"; txt "program"]; Other [txt "TYPE"; txt "CVRP"]; Other [txt "DEPOT_SECTION"]; Other [txt "1"]; Other [txt "-1"]; Other [txt "EOF"]].
    split; [|split; [|split; [reflexivity|split; [reflexivity|]]]].
    + unfold pr_parts. apply NoDup_Permutation.
      * repeat constructor; cbn; intuition discriminate.
      * repeat constructor; cbn; intuition discriminate.
      * intro x. cbn [app In]. tauto.
    + apply (dec_digit 6). split; [lia|reflexivity].
    + assert (PL : forall rows, forallb (fun r => match r with [] => true | w :: _ => negb (existsb (text_eqb w) (keys pr_instance)) end) rows = true ->
        Forall (plain pr_instance) rows).
      { intros rows H. rewrite forallb_forall in H. apply Forall_forall. intros r Hr. specialize (H r Hr). unfold plain. destruct r as [|w r]; auto.
        intro I. apply negb_true_iff in H. assert (X : existsb (text_eqb w) (keys pr_instance) = true).
        { apply existsb_exists. exists w. split; auto. apply text_eqb_refl. } congruence. }
      split; [|split; [|split; [|split; [|split]]]].
      * repeat constructor; eexists _, _, _, _; repeat split; reflexivity.
      * apply PL. reflexivity.
      * repeat constructor; eexists _, _, _; repeat split; reflexivity.
      * apply PL. reflexivity.
      * cbn [weight_parts pr_instance in_weights]. split; reflexivity.
      * apply Forall_forall. intros x Hx.
        assert (exists line, x = Other line) as (line & ->) by (cbn in Hx; intuition subst; eauto).
        exists line. split; auto. revert Hx. cbn. intuition (try discriminate);
          match goal with H : Other _ = Other _ |- _ => injection H as <- end; cbn; intuition discriminate.
  - change (concat (map part_lines pr_parts)) with (map words pr_lines).
    assert (F : forall ls, (forall l, In l ls -> line_text (words l) l) -> Forall2 line_text (map words ls) ls).
    { induction ls as [|l ls IH]; intro H; cbn [map]; constructor; [apply H; now left|apply IH; intros; apply H; now right]. }
    apply F. intros l Hl.
    assert (X : forallb (fun l => lay (words l) l) pr_lines = true) by (vm_compute; reflexivity).
    rewrite forallb_forall in X. apply lay_sound. now apply X.
  - apply join_text. discriminate.
Qed.

Fact pr_sensible : sensible pr_sqrt pr_round pr_instance.
Proof.
  constructor.
  - cbn. lia.
  - reflexivity.
  - cbn [pr_instance in_nodes length]. intros a H. do 6 (destruct a as [|a]; [vm_compute; discriminate|]). lia.
  - discriminate.
  - exists 14%Q. split.
    + assert (X : forallb (fun a => forallb (fun b => Qle_bool (instance_distance pr_sqrt pr_round pr_instance a b) 14) (seq 0 6)) (seq 0 6) = true)
        by (vm_compute; reflexivity).
      rewrite forallb_forall in X. intros a b HA HB. specialize (X a ltac:(apply in_seq; cbn in HA; lia)). rewrite forallb_forall in X.
      specialize (X b ltac:(apply in_seq; cbn in HB; lia)). now apply Qle_bool_iff.
    + apply Qltb_lt. vm_compute. reflexivity.
Qed.

Definition pr_lookup (yaml : @value NumQ) (name : string) : option (@value NumQ) :=
  match main_config yaml pr_cl with Ok f => lookup (txt name) f | Err _ => None end.
Fact pr_accepted : exists f, main_config pr_yaml pr_cl = Ok f.
Proof.
  destruct (main_config pr_yaml pr_cl) as [f|e] eqn:E; [eauto|]. exfalso.
  assert (X : match main_config pr_yaml pr_cl with Ok _ => true | Err _ => false end = true) by (vm_compute; reflexivity).
  rewrite E in X. discriminate X.
Qed.
Section Hypotheses.
Variable yaml : @value NumQ.
Variable f : @fields NumQ.
Hypothesis accepted : main_config yaml pr_cl = Ok f.
Local Lemma pr_int name z : match pr_lookup yaml name with Some (VInt y) => Z.eqb y z | _ => false end = true -> has f (txt name) (VInt z).
Proof.
  unfold pr_lookup. rewrite accepted. intro H. destruct (main_facts _ _ f accepted) as (HC & _). apply (lookup_has f); [exact (conf_nodup f HC)|].
  destruct (lookup (txt name) f) as [[| |y| | | |]|]; try discriminate H. apply Z.eqb_eq in H. now subst.
Qed.
Local Lemma pr_float name : match pr_lookup yaml name with Some (VFloat (Some x)) => Qle_bool 0 x | _ => false end = true ->
  exists x : @F NumQ, has f (txt name) (VFloat (Some x)) /\ (0 <= x)%Q.
Proof.
  unfold pr_lookup. rewrite accepted. intro H. destruct (main_facts _ _ f accepted) as (HC & _).
  destruct (lookup (txt name) f) as [[| | |[x|]| | |]|] eqn:E; try discriminate H. apply lookup_has in E; [|exact (conf_nodup f HC)].
  exists x. split; [exact E|now apply Qle_bool_iff].
Qed.
End Hypotheses.
Fact pr_settings f : main_config pr_yaml pr_cl = Ok f -> settings_ok f 6 /\ not_decomposed f 6 /\ populated f /\ finite_settings f.
Proof.
  intro accepted.
  split; [constructor|split; [|split]].
  - exists 3%Z. split; [apply (pr_int pr_yaml f accepted); vm_compute; reflexivity|cbn; lia].
  - apply (pr_float pr_yaml f accepted). vm_compute. reflexivity.
  - apply (pr_float pr_yaml f accepted). vm_compute. reflexivity.
  - exists 3000%Z. split; [apply (pr_int pr_yaml f accepted); vm_compute; reflexivity|lia].
  - intros name H. cbn [In] in H. destruct H as [<-|[<-|[<-|[<-|[]]]]].
    + exists 2%Z. split; [apply (pr_int pr_yaml f accepted); vm_compute; reflexivity|lia].
    + exists 2%Z. split; [apply (pr_int pr_yaml f accepted); vm_compute; reflexivity|lia].
    + exists 3%Z. split; [apply (pr_int pr_yaml f accepted); vm_compute; reflexivity|lia].
    + exists 2%Z. split; [apply (pr_int pr_yaml f accepted); vm_compute; reflexivity|lia].
  - intros name NB H.
    assert (X : forallb (fun e => match snd e with VFloat None => text_eqb (fst e) (txt "bks") | _ => true end)
                  (match main_config pr_yaml pr_cl with Ok f => f | Err _ => [] end) = true) by (vm_compute; reflexivity).
    rewrite accepted, forallb_forall in X. specialize (X _ H). cbn [fst snd] in X. apply text_eqb_spec in X. contradiction.
Qed.

(** So the theorems apply to it, whatever the bound on the loops. *)
Example pr_applies fuel : let X := pr_outside fuel in
  program rust_lib X pr_read pr_yaml pr_cl = Err EFuel \/
  exists content, program rust_lib X pr_read pr_yaml pr_cl = Ok (Some (txt "a.sol", content)) /\
    (content = [] \/
     exists routes cost solution, content = solution ++ [LF] /\ solution_text 1 routes cost solution /\
       serves_all_once 6 routes /\ (forall r, In r routes -> r <> []) /\
       (forall r, In r routes -> route_load (instance_demand pr_instance) r <= in_cap pr_instance)%Q /\
       (inject_Z (Z.of_nat cost) == total_length (instance_distance pr_sqrt pr_round pr_instance) routes)%Q).
Proof.
  intro X. destruct pr_accepted as (f & EF). destruct (pr_settings f EF) as (S1 & S2 & S3 & S4).
  assert (U : forall l, In l (lines_of (pr_read (cl_instance pr_cl))) -> x_utf8 X l = true) by reflexivity.
  destruct (C53_no_panic rust_lib rust_lib_ok X (pr_functions fuel) pr_read pr_yaml pr_cl pr_instance f pr_described U pr_sensible EF S1 S2 S3 S4)
    as [(content & EP)|EP]; [right|now left].
  destruct (C52_solution_file_integral rust_lib rust_lib_ok X (pr_functions fuel) pr_read pr_yaml pr_cl pr_instance f pr_described U pr_sensible EF S1 (or_introl S2) _ EP)
    as (content' & EQ & R).
  - intros a _. do 6 (destruct a as [|a]; [eexists; reflexivity|]). exists 0%Z. destruct a; reflexivity.
  - exists 10%Z. reflexivity.
  - intro x. eexists. reflexivity.
  - injection EQ as <-. exists content. split; [exact EP|exact R].
Qed.

(** The same file with a configuration under which the instance is decomposed.  (The first solution
    takes 100000 rounds of ruin and recreate, too many to be computed here.) *)
Definition pp_yaml : @value NumQ := match pr_yaml with
  | VMap l => VMap ((@VString NumQ (txt "decompose_limit"), @VInt NumQ 5) ::
                    (@VString NumQ (txt "decomposed_problem_min_size"), @VInt NumQ 4) :: l)
  | v => v
  end.
Fact pp_accepted : exists f, main_config pp_yaml pr_cl = Ok f.
Proof.
  destruct (main_config pp_yaml pr_cl) as [f|e] eqn:E; [eauto|]. exfalso.
  assert (X : match main_config pp_yaml pr_cl with Ok _ => true | Err _ => false end = true) by (vm_compute; reflexivity).
  rewrite E in X. discriminate X.
Qed.
Fact pp_settings f : main_config pp_yaml pr_cl = Ok f ->
  settings_ok f 6 /\ ~ not_decomposed f 6 /\ parts_ok pr_sqrt pr_round f pr_instance /\ populated f /\ finite_settings f.
Proof.
  intro accepted. split; [constructor|split; [|split; [constructor|split]]].
  - exists 3%Z. split; [apply (pr_int pp_yaml f accepted); vm_compute; reflexivity|cbn; lia].
  - apply (pr_float pp_yaml f accepted). vm_compute. reflexivity.
  - apply (pr_float pp_yaml f accepted). vm_compute. reflexivity.
  - intros (z & HZ & B). destruct (main_facts _ _ f accepted) as (HC & _).
    assert (H5 : has f (txt "decompose_limit") (@VInt NumQ 5)) by (apply (pr_int pp_yaml f accepted); vm_compute; reflexivity).
    apply (lookup_has f) in HZ; [|exact (conf_nodup f HC)]. apply (lookup_has f) in H5; [|exact (conf_nodup f HC)].
    rewrite H5 in HZ. injection HZ as <-. cbn in B. lia.
  - exists 3%Z, 4%Z. split; [apply (pr_int pp_yaml f accepted); vm_compute; reflexivity|].
    split; [apply (pr_int pp_yaml f accepted); vm_compute; reflexivity|]. cbn. lia.
  - exists 14%Q. split.
    + assert (X : forallb (fun a => forallb (fun b => Qle_bool (instance_distance pr_sqrt pr_round pr_instance a b) 14) (seq 0 6)) (seq 0 6) = true)
        by (vm_compute; reflexivity).
      rewrite forallb_forall in X. intros a b HA HB. specialize (X a ltac:(apply in_seq; cbn in HA; lia)). rewrite forallb_forall in X.
      specialize (X b ltac:(apply in_seq; cbn in HB; lia)). now apply Qle_bool_iff.
    + apply Qltb_lt. vm_compute. reflexivity.
  - intros name H. cbn [In] in H. destruct H as [<-|[<-|[<-|[<-|[]]]]].
    + exists 2%Z. split; [apply (pr_int pp_yaml f accepted); vm_compute; reflexivity|lia].
    + exists 2%Z. split; [apply (pr_int pp_yaml f accepted); vm_compute; reflexivity|lia].
    + exists 3%Z. split; [apply (pr_int pp_yaml f accepted); vm_compute; reflexivity|lia].
    + exists 2%Z. split; [apply (pr_int pp_yaml f accepted); vm_compute; reflexivity|lia].
  - intros name NB H.
    assert (X : forallb (fun e => match snd e with VFloat None => text_eqb (fst e) (txt "bks") | _ => true end)
                  (match main_config pp_yaml pr_cl with Ok f => f | Err _ => [] end) = true) by (vm_compute; reflexivity).
    rewrite accepted, forallb_forall in X. specialize (X _ H). cbn [fst snd] in X. apply text_eqb_spec in X. contradiction.
Qed.

(** So when the program ends with this configuration it has written the right file. *)
Example pp_applies fuel out : let X := pr_outside fuel in
  program rust_lib X pr_read pp_yaml pr_cl = Ok out ->
  exists content, out = Some (txt "a.sol", content) /\
    (content = [] \/
     exists routes cost solution, content = solution ++ [LF] /\ solution_text 1 routes cost solution /\
       serves_all_once 6 routes /\ (forall r, In r routes -> r <> []) /\
       (forall r, In r routes -> route_load (instance_demand pr_instance) r <= in_cap pr_instance)%Q /\
       (inject_Z (Z.of_nat cost) == total_length (instance_distance pr_sqrt pr_round pr_instance) routes)%Q).
Proof.
  intros X H. destruct pp_accepted as (f & EF). destruct (pp_settings f EF) as (S1 & _ & S2 & _ & _).
  assert (U : forall l, In l (lines_of (pr_read (cl_instance pr_cl))) -> x_utf8 X l = true) by reflexivity.
  apply (C52_solution_file_integral rust_lib rust_lib_ok X (pr_functions fuel) pr_read pp_yaml pr_cl pr_instance f pr_described U pr_sensible EF S1 (or_intror S2) _ H).
  - intros a _. do 6 (destruct a as [|a]; [eexists; reflexivity|]). exists 0%Z. destruct a; reflexivity.
  - exists 10%Z. reflexivity.
  - intro x. eexists. reflexivity.
Qed.
