(** Annealing schedules.  Models src/solver/improvement/ruin_recreate/schedule.rs. *)
From Coq Require Import List Arith NArith ZArith Bool.
From Verif.Model Require Import Num Prelude Evaluate Individual Config World.
Import ListNotations.

Section Schedule.
  Context {N : Num}.
  Variable E : env.

  (** schedule.rs:8 *)
  Definition min_value : F := flit 1353352832366127 (10 ^ 16).

  (** schedule.rs:62 and 145; [t * -COOLING_FACTOR] is written [0 - t * 2], which is the same
      number (the sign of a zero apart) *)
  Definition temperature (start_temp t : F) : F :=
    (e_exp E (f0 -: t *: flit 2 1) -: t *: min_value) *: start_temp.

  (** schedule.rs:35-40 *)
  Record iter_schedule := mkIS {
    is_temp : F;
    is_start_temp : F;
    is_total : nat;
    is_iteration : nat
  }.
  (** schedule.rs:43-50 *)
  Definition is_new (start_temp : F) (iterations : nat) : iter_schedule :=
    mkIS start_temp start_temp iterations 0.
  (** schedule.rs:84-86 *)
  Definition is_elapsed (s : iter_schedule) : F := fnat (is_iteration s) /: fnat (is_total s).
  (** schedule.rs:59-63 *)
  Definition is_update (s : iter_schedule) : iter_schedule :=
    let s := mkIS (is_temp s) (is_start_temp s) (is_total s) (is_iteration s + 1) in
    mkIS (temperature (is_start_temp s) (is_elapsed s)) (is_start_temp s) (is_total s) (is_iteration s).
  (** schedule.rs:65-67 *)
  Definition is_completed (s : iter_schedule) : bool := is_total s <=? is_iteration s.
  (** schedule.rs:69-72 *)
  Definition is_reset (s : iter_schedule) : iter_schedule :=
    mkIS (is_start_temp s) (is_start_temp s) (is_total s) 0.

  (** schedule.rs:90-99; [ts_start] is the clock value at the start *)
  Record time_schedule := mkTS {
    ts_start : F;
    ts_duration : F;
    ts_temp : F;
    ts_start_temp : F;
    ts_iterations : nat;
    ts_since : nat;
    ts_rate : nat;
    ts_completed : bool
  }.
  (** schedule.rs:102-127 *)
  Definition ts_new (start_temp duration : F) (w : world) : time_schedule * world :=
    let '(t, w) := now E w in
    (mkTS t duration start_temp start_temp 0 0 100 false, w).
  (** schedule.rs:140-151; elapsed: 173-175 *)
  Definition ts_update (s : time_schedule) (w : world) : time_schedule * world :=
    let s := mkTS (ts_start s) (ts_duration s) (ts_temp s) (ts_start_temp s)
                  (ts_iterations s + 1) (ts_since s + 1) (ts_rate s) (ts_completed s) in
    if ts_since s =? ts_rate s then
      let '(c, w) := now E w in
      let t := (c -: ts_start s) /: ts_duration s in
      (mkTS (ts_start s) (ts_duration s) (temperature (ts_start_temp s) t) (ts_start_temp s)
            (ts_iterations s) 0 (ts_rate s) (if f1 <=:? t then true else ts_completed s), w)
    else (s, w).
  (** schedule.rs:157-161: neither the temperature nor the completion flag is reset *)
  Definition ts_reset (s : time_schedule) (w : world) : time_schedule * world :=
    let '(t, w) := now E w in
    (mkTS t (ts_duration s) (ts_temp s) (ts_start_temp s) 0 0 (ts_rate s) (ts_completed s), w).

  (** schedule.rs:178-223 *)
  Inductive acceptance := AIter (s : iter_schedule) | ATime (s : time_schedule).
  Definition acc_temp (a : acceptance) : F :=
    match a with AIter s => is_temp s | ATime s => ts_temp s end.
  Definition acc_update (a : acceptance) (w : world) : acceptance * world :=
    match a with
    | AIter s => (AIter (is_update s), w)
    | ATime s => let '(s, w) := ts_update s w in (ATime s, w)
    end.
  Definition acc_completed (a : acceptance) : bool :=
    match a with AIter s => is_completed s | ATime s => ts_completed s end.
  Definition acc_reset (a : acceptance) (w : world) : acceptance * world :=
    match a with
    | AIter s => (AIter (is_reset s), w)
    | ATime s => let '(s, w) := ts_reset s w in (ATime s, w)
    end.

  (** schedule.rs:26-28.  Costs are [None] when INFINITY: then the right-hand side is taken to
      be INFINITY (in Rust it is NaN when the temperature is zero and the random number is
      zero as well). *)
  Definition accepts (p : problem) (a : acceptance) (new old : option F) (r : rng) : bool * rng :=
    let '(x, r) := real p r in
    (match old with
     | Some o => match new with
                 | Some n => approx_lt n (o -: acc_temp a *: o_ln p x)
                 | None => false
                 end
     | None => match new with Some n => flt_inf n | None => false end
     end, r).
End Schedule.
