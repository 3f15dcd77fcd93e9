(** Circle sectors.  Models src/models/circle_sector.rs.
    Angles are i32 values in [0, 65536), so no subtraction overflows and Z is exact;
    [rem_euclid] with a positive modulus is [Z.modulo]. *)
From Coq Require Import ZArith Bool List.
Open Scope Z_scope.

(** circle_sector.rs:2 *)
Definition max_angle : Z := 65536.

(** circle_sector.rs:6-9 *)
Record sector := mkSector { cs_start : Z; cs_end : Z }.

(** circle_sector.rs:12-19 *)
Definition sector_new : sector := mkSector 0 0.

(** circle_sector.rs:42-44 *)
Definition is_enclosed (s : sector) (angle : Z) : bool :=
  (angle - cs_start s) mod max_angle <=? (cs_end s - cs_start s) mod max_angle.

(** circle_sector.rs:26-40 *)
Definition extend (s : sector) (angle : Z) : sector :=
  if (cs_start s =? 0) && (cs_end s =? 0) then mkSector angle angle
  else if is_enclosed s angle then s
  else if (angle - cs_end s) mod max_angle <=? (cs_start s - angle) mod max_angle
       then mkSector (cs_start s) angle
       else mkSector angle (cs_end s).

(** circle_sector.rs:46-51 *)
Definition overlaps (s o : sector) : bool :=
  ((cs_start o - cs_start s) mod max_angle <=? (cs_end s - cs_start s) mod max_angle)
  || ((cs_start s - cs_start o) mod max_angle <=? (cs_end o - cs_start o) mod max_angle).
