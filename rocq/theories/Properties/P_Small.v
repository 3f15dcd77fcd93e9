(** C41 (circle sectors), C42 (tolerant comparisons), C46 (random utilities). *)
From Coq Require Import List Arith NArith ZArith QArith Bool Lia Lqa Permutation.
From Verif.Model Require Import Num Prelude Sector Random.
From Verif.Proofs Require Import Lists QNum SmallFacts.
Import ListNotations.

(** ** C41 *)

(** A sector extended with any sequence of angles whose first angle is not 0 encloses all of
    them. *)
Theorem C41_sector_encloses_partial (a : Z) (l : list Z) (x : Z) :
  (forall b, In b (a :: l) -> (0 <= b < 65536)%Z) -> a <> 0%Z -> In x (a :: l) ->
  is_enclosed (fold_left extend (a :: l) sector_new) x = true.
Proof. exact (sector_encloses a l x). Qed.
Print Assumptions C41_sector_encloses_partial.

Example C41_nonvacuous :
  (forall b, In b [60000; 0; 3000; 20000; 59999]%Z -> (0 <= b < 65536)%Z) /\
  fold_left extend [60000; 0; 3000; 20000; 59999]%Z sector_new = mkSector 59999 20000.
Proof. split; [|reflexivity]. intros b Hb. cbn in Hb. lia. Qed.

(** The full claim fails: the empty sector is represented like the sector of angle 0, so an
    angle 0 that comes first is forgotten. *)
Theorem C41_sector_encloses_refuted :
  exists l x, (forall b, In b l -> (0 <= b < 65536)%Z) /\ In x l /\
    is_enclosed (fold_left extend l sector_new) x = false.
Proof.
  exists [0; 100]%Z, 0%Z. split; [|split].
  - intros b Hb. cbn in Hb. lia.
  - now left.
  - reflexivity.
Qed.
Print Assumptions C41_sector_encloses_refuted.

(** Two sectors overlap exactly if they share an angle. *)
Theorem C41_overlap_iff_common_angle (s o : sector) :
  (0 <= cs_start s < 65536)%Z -> (0 <= cs_start o < 65536)%Z ->
  overlaps s o = true <->
  exists x, (0 <= x < 65536)%Z /\ is_enclosed s x = true /\ is_enclosed o x = true.
Proof. exact (overlaps_iff s o). Qed.
Print Assumptions C41_overlap_iff_common_angle.

Example C41_overlap_cases :
  overlaps (mkSector 60000 100) (mkSector 50 200) = true /\
  overlaps (mkSector 60000 100) (mkSector 101 59999) = false.
Proof. split; reflexivity. Qed.

(** [is_enclosed] itself means lying on the arc that runs from start to end. *)
Theorem C41_enclosed_iff_on_arc (s : sector) (x : Z) :
  is_enclosed s x = true <->
  exists k, (0 <= k <= (cs_end s - cs_start s) mod 65536)%Z /\
            ((x - (cs_start s + k)) mod 65536 = 0)%Z.
Proof.
  unfold is_enclosed, max_angle. rewrite Z.leb_le. split.
  - intros H. exists ((x - cs_start s) mod 65536)%Z. split.
    + split; auto. apply Z.mod_pos_bound. lia.
    + clear H. Z.to_euclidean_division_equations; lia.
  - intros (k & Hk & E). Z.to_euclidean_division_equations; lia.
Qed.
Print Assumptions C41_enclosed_iff_on_arc.

(** ** C42 *)

Local Notation eps := (1 # 1000000)%Q.

Theorem C42_strict_orders (a b c : Q) :
  (@approx_lt NumQ a b = true -> a < b)%Q /\ (@approx_gt NumQ a b = true -> b < a)%Q /\
  @approx_lt NumQ a a = false /\ @approx_gt NumQ a a = false /\
  (@approx_lt NumQ a b = true -> @approx_lt NumQ b c = true -> @approx_lt NumQ a c = true) /\
  (@approx_gt NumQ a b = true -> @approx_gt NumQ b c = true -> @approx_gt NumQ a c = true) /\
  (@approx_lt NumQ a b = true <-> @approx_gt NumQ b a = true).
Proof.
  rewrite !approx_lt_Q, !approx_gt_Q, approx_lt_Q_false, approx_gt_Q_false. repeat split; intros; lra.
Qed.
Print Assumptions C42_strict_orders.

Theorem C42_eq_reflexive_symmetric (a b : Q) :
  @approx_eq NumQ a a = true /\ @approx_eq NumQ a b = @approx_eq NumQ b a /\
  (@approx_eq NumQ a b = true <-> (a - b < eps /\ b - a < eps)%Q).
Proof.
  split; [|split].
  - apply approx_eq_Q. lra.
  - destruct (@approx_eq NumQ a b) eqn:E, (@approx_eq NumQ b a) eqn:E2; auto.
    + apply approx_eq_Q in E. assert (@approx_eq NumQ b a = true) by (apply approx_eq_Q; lra). congruence.
    + apply approx_eq_Q in E2. assert (@approx_eq NumQ a b = true) by (apply approx_eq_Q; lra). congruence.
  - rewrite approx_eq_Q. split; intros; lra.
Qed.
Print Assumptions C42_eq_reflexive_symmetric.

Theorem C42_lte_gte (a b : Q) :
  (@approx_lte NumQ a b = true <-> (a < b)%Q \/ @approx_eq NumQ a b = true) /\
  (@approx_gte NumQ a b = true <-> (b < a)%Q \/ @approx_eq NumQ a b = true) /\
  (@approx_lte NumQ a b = true <-> @approx_gte NumQ b a = true) /\
  (@approx_lte NumQ a b = true \/ @approx_lte NumQ b a = true).
Proof.
  rewrite !approx_lte_Q, !approx_gte_Q, approx_eq_Q.
  destruct (Qlt_le_dec a b); repeat split; intros; try lra; (left; lra) || (right; lra).
Qed.
Print Assumptions C42_lte_gte.

(** [lte] excludes [gt]; together they cover everything except the single point where the
    difference is exactly 1e-6. *)
Theorem C42_lte_excludes_gt_partial (a b : Q) :
  (@approx_lte NumQ a b = true -> @approx_gt NumQ a b = false) /\
  (~ (a == b + eps)%Q -> @approx_lte NumQ a b = negb (@approx_gt NumQ a b)).
Proof.
  split.
  - rewrite approx_lte_Q, approx_gt_Q_false. lra.
  - intros Hne. destruct (@approx_gt NumQ a b) eqn:E; cbn.
    + apply approx_gt_Q in E. apply approx_lte_Q_false. lra.
    + apply approx_gt_Q_false in E. apply approx_lte_Q. destruct (Qlt_le_dec a (b + eps)); auto.
      exfalso. apply Hne. lra.
Qed.
Print Assumptions C42_lte_excludes_gt_partial.

(** At that point neither holds, so [lte] is not the negation of [gt]. *)
Theorem C42_lte_negates_gt_refuted :
  exists a b : Q, @approx_lte NumQ a b = false /\ @approx_gt NumQ a b = false.
Proof. exists eps, 0%Q. split; reflexivity. Qed.
Print Assumptions C42_lte_negates_gt_refuted.

Example C42_nonvacuous :
  @approx_lt NumQ 10%Q (10 + (1 # 100000))%Q = true /\ @approx_eq NumQ 10%Q (10 + (1 # 10000000))%Q = true /\
  @approx_lt NumQ 10%Q (10 + (1 # 10000000))%Q = false /\ @approx_lte NumQ (10 + (1 # 10000000))%Q 10%Q = true.
Proof. repeat split; reflexivity. Qed.

(** ** C46 *)

Open Scope nat_scope.

Theorem C46_shuffle_permutes {A} (l : list A) (r : rng) :
  Permutation (fst (shuffle l r)) l.
Proof. destruct (shuffle l r) as [l' r'] eqn:E. exact (shuffle_perm l r l' r' E). Qed.
Print Assumptions C46_shuffle_permutes.

(** Sampling [number] elements succeeds iff there are that many; the sample and the elements
    left behind together are the input. *)
Theorem C46_sample (A : Type) (vec : list A) (number : nat) (r : rng) :
  (number <= length vec -> exists out r', sample_from_vec vec number r = Ok (out, r')) /\
  (forall out r', sample_from_vec vec number r = Ok (out, r') ->
     length out = number /\ exists rest, Permutation (out ++ rest) vec).
Proof.
  unfold sample_from_vec. split.
  - intros H. destruct (Nat.leb_spec number (length vec)); [|lia]. now apply sample_loop_ok.
  - intros out r' H. destruct (number <=? length vec); [|discriminate].
    apply sample_loop_spec in H as (rest & s & -> & Hl & Hp). split; auto. now exists rest.
Qed.
Print Assumptions C46_sample.

Theorem C46_range (lo hi : nat) (r : rng) :
  (lo < hi -> exists k r', range_usize lo hi r = Ok (k, r')) /\
  (forall k r', range_usize lo hi r = Ok (k, r') -> lo <= k < hi).
Proof.
  split; [apply range_usize_ok|]. intros k r' H. now apply range_usize_spec in H.
Qed.
Print Assumptions C46_range.

(** Every value of a range and every element is possible for some stream. *)
Theorem C46_range_onto (lo hi k : nat) : lo <= k < hi ->
  exists r r', range_usize lo hi r = Ok (k, r').
Proof.
  intros H. exists (mkRng (fun _ => N.of_nat (k - lo)) 0). unfold range_usize.
  destruct (Nat.ltb_spec lo hi); [|lia]. cbn [draw rdraw rpos].
  rewrite N.mod_small by lia. rewrite Nnat.Nat2N.id. eexists. repeat f_equal. lia.
Qed.
Print Assumptions C46_range_onto.

Example C46_nonvacuous :
  fst (shuffle [1; 2; 3; 4] (mkRng (fun i => N.of_nat (3 * i + 1)) 0)) = [1; 3; 2; 4] /\
  match sample_from_vec [10; 20; 30; 40] 3 (mkRng (fun i => N.of_nat (3 * i + 1)) 0) with
  | Ok (out, _) => out = [20; 30; 40] | _ => False end.
Proof. split; vm_compute; reflexivity. Qed.
