(** Primary variable switching model: the primary variables, their assignment from a fluid
    state and the saturations and mole fractions read back. Models
    opm/models/pvs/pvsprimaryvariables.hh, pvs/pvsindices.hh and parts of
    pvs/pvsintensivequantities.hh and pvs/pvsnewtonmethod.hh. *)
From Coq Require Export List ZArith QArith Lia Lqa Bool Arith.
From Verif Require Export Num.
Export ListNotations.
Open Scope Q_scope.

(** The values of a vector, by index, and the bit set of present phases (a [short], hence at
    most 15 phases; modelled by an integer). *)
Record pvars := mkPvars { pv : nat -> Q; presence : Z }.
Definition put (i : nat) (q : Q) (v : pvars) : pvars :=
  mkPvars (fun j => if (j =? i)%nat then q else pv v j) (presence v).

(** A fluid state: saturation by phase, mole fraction by phase and component, pressure. *)
Record fstate := mkFstate {
  fs_sat : nat -> Q;
  fs_x : nat -> nat -> Q;
  fs_p : nat -> Q
}.

(** pvsprimaryvariables.hh 210-211, 219-220. *)
Definition phaseIsPresent (i : nat) (p : Z) : bool :=
  negb (Z.land p (Z.shiftl 1 (Z.of_nat i)) =? 0)%Z.
(** pvsprimaryvariables.hh 187-193. *)
Definition setPhasePresent (i : nat) (yesno : bool) (v : pvars) : pvars :=
  mkPvars (pv v)
    (if yesno then Z.lor (presence v) (Z.shiftl 1 (Z.of_nat i))
     else Z.land (presence v) (Z.lnot (Z.shiftl 1 (Z.of_nat i)))).
(** pvsprimaryvariables.hh 225-226: the lowest set bit ([ffs] minus one). [None] stands for
    the index 2^32-1 which the code computes if no bit is set. *)
Definition lowest (p : Z) : option nat := find (fun i => phaseIsPresent i p) (seq 0 15).

Section Pvs.
Variable P : nat.           (* numPhases *)
Variable C : nat.           (* numComponents *)
Variable off : nat.         (* PVOffset *)

(** pvsindices.hh 60-63. *)
Definition pressure0Idx : nat := off + 0.
Definition switch0Idx : nat := off + 1.

Definition sum (l : list nat) (f : nat -> Q) : Q := fold_left (fun a i => a + f i) l 0.

(** pvsprimaryvariables.hh 290-303: the loop which determines the present phases. *)
Definition closure (fs : fstate) (i : nat) : Q := fold_left (fun a c => a - fs_x fs i c) (seq 0 C) 1.
Definition found_presence (fs : fstate) : Z :=
  fold_left (fun p i => if Qltb (closure fs i) (fs_sat fs i)
                        then Z.lor p (Z.shiftl 1 (Z.of_nat i)) else p) (seq 0 P) 0%Z.

(** The phase which a switching variable refers to: pvsprimaryvariables.hh 312-316 and
    pvsintensivequantities.hh 186-190. *)
Definition switchPhase (low s : nat) : nat := if (low <=? s)%nat then S s else s.

(** pvsprimaryvariables.hh 278-336: assignNaive, without the temperature, which belongs to the
    energy module. [None] is the exception. *)
Definition assignNaive (fs : fstate) (v : pvars) : option pvars :=
  let v := put pressure0Idx (fs_p fs 0) v in
  let v := mkPvars (pv v) (found_presence fs) in
  match lowest (presence v) with
  | None => None
  | Some low =>
      let v := fold_left (fun v s =>
                 put (switch0Idx + s)
                   (if phaseIsPresent (switchPhase low s) (presence v)
                    then fs_sat fs (switchPhase low s) else fs_x fs low (s + 1)) v)
               (seq 0 (P - 1)) v in
      Some (fold_left (fun v c => put (switch0Idx + c) (fs_x fs low (c + 1)) v)
              (seq (P - 1) (C - 1 - (P - 1))) v)
  end.

(** pvsprimaryvariables.hh 257-271: explicitSaturationValue (the value; the derivatives are
    left out). *)
Definition explicitSaturation (v : pvars) (i : nat) : Q :=
  if negb (phaseIsPresent i (presence v)) ||
     match lowest (presence v) with Some low => (i =? low)%nat | None => false end
  then 0 else pv v (switch0Idx + i - 1).

(** pvsintensivequantities.hh 117-127: the saturations of the evaluated fluid state. *)
Definition read_saturation (v : pvars) (i : nat) : Q :=
  match lowest (presence v) with
  | Some low => if (i =? low)%nat then 1 - sum (seq 0 P) (explicitSaturation v)
                else explicitSaturation v i
  | None => explicitSaturation v i
  end.

(** pvsintensivequantities.hh 139-142. *)
Definition read_pressure (v : pvars) (pc : nat -> Q) (i : nat) : Q :=
  pv v pressure0Idx + (pc i - pc 0%nat).

(** pvsintensivequantities.hh 150-154. *)
Definition numNonPresent (v : pvars) : nat :=
  length (filter (fun i => negb (phaseIsPresent i (presence v))) (seq 0 P)).

(** pvsintensivequantities.hh 156-213: which mole fractions (phase, component, value) are
    prescribed; the others are computed by constraint solvers, which are not modelled. *)
Definition read_composition (v : pvars) (low : nat) : list (nat * nat * Q) :=
  if (numNonPresent v =? P - 1)%nat then
    map (fun c => (low, c, pv v (switch0Idx + c - 1))) (seq 1 (C - 1)) ++
    [(low, 0%nat, 1 - sum (seq 1 (C - 1)) (fun c => pv v (switch0Idx + c - 1)))]
  else
    let numAux := (C + numNonPresent v - P)%nat in
    let first :=
      map (fun s => (low, S s, pv v (switch0Idx + s)))
        (filter (fun s => negb (phaseIsPresent (switchPhase low s) (presence v))) (seq 0 (P - 1))) in
    first ++
    map (fun a => (low, P - numNonPresent v + a, pv v (switch0Idx + (P - 1 + (a - length first)))))%nat
      (seq (length first) (numAux - length first)).

(** pvsnewtonmethod.hh 79-121: the update of the Newton method. Fractions as decimals. *)
Section Newton.
Variable current : pvars.
Variable update : nat -> Q.
Definition qabs (x : Q) : Q := if Qltb x 0 then - x else x.
(** [std::max(a, b)] is [a < b ? b : a]. *)
Definition qmax (a b : Q) : Q := if Qltb a b then b else a.
Definition qmin (a b : Q) : Q := if Qltb b a then b else a.
Definition clampValue (val lo hi : Q) : Q := qmax lo (qmin val hi).

Definition limited_phases : list nat :=
  filter (fun i => phaseIsPresent i (presence current)) (seq 0 (P - 1)).
Definition maxSatDelta (l : list nat) (u : nat -> Q) : Q :=
  qmax (qabs (- sum l u)) (fold_left (fun m i => qmax (qabs (u i)) m) l 0).
Definition pvs_update : pvars :=
  let u i := update (switch0Idx + i)%nat in
  let next := mkPvars (fun j => pv current j - update j) (presence current) in
  let m := maxSatDelta limited_phases u in
  let next :=
    if Qltb (1#5) m then
      fold_left (fun v i => put (switch0Idx + i)
                              (pv current (switch0Idx + i) - (1#5) / m * u i) v)
        limited_phases next
    else next in
  put pressure0Idx (clampValue (pv next pressure0Idx)
                      (pv current pressure0Idx * (8#10)) (pv current pressure0Idx * (12#10))) next.
End Newton.
End Pvs.

(** The Newton update of the NCP model: ncpnewtonmethod.hh 129-216 and the indices
    ncpindices.hh 84-99. *)
Section Ncp.
Variable P : nat.
Variable C : nat.
Variable off : nat.
Definition fugacity0Idx : nat := off.
Definition saturation0Idx : nat := off + C.
Definition ncp_pressure0Idx : nat := saturation0Idx + (P - 1).

Variable current : nat -> Q.
Variable update : nat -> Q.
Variable minPhi : nat -> Q.       (* minActivityCoeff of the cell, by component *)
Variable early : bool.            (* numIterations_ < 3 *)

Definition put1 (i : nat) (q : Q) (v : nat -> Q) : nat -> Q :=
  fun j => if (j =? i)%nat then q else v j.

(** ncpnewtonmethod.hh 143-160. *)
Definition ncp_saturations (next : nat -> Q) : nat -> Q :=
  let u i := update (saturation0Idx + i)%nat in
  let m := maxSatDelta (seq 0 (P - 1)) u in
  if Qltb (1#5) m then
    fold_left (fun v i => put1 (saturation0Idx + i)
                            (current (saturation0Idx + i)%nat - (1#5) / m * u i) v)
      (seq 0 (P - 1)) next
  else next.
(** 162-165. *)
Definition ncp_pressure (next : nat -> Q) : nat -> Q :=
  put1 ncp_pressure0Idx
    (clampValue (next ncp_pressure0Idx) (current ncp_pressure0Idx * (8#10))
       (current ncp_pressure0Idx * (12#10))) next.
(** 167-185. *)
Definition ncp_fugacities (next : nat -> Q) : nat -> Q :=
  fold_left (fun v c =>
    let old := current (fugacity0Idx + c)%nat in
    let phi := qmax ((1#1000) * current ncp_pressure0Idx) (minPhi c) in
    let maxDelta := (7#10) * phi in
    put1 (fugacity0Idx + c)
      (qmax (clampValue (v (fugacity0Idx + c)%nat) (old - maxDelta) (old + maxDelta)) 0) v)
    (seq 0 C) next.
(** 187-211. *)
Definition ncp_early_fugacity (next : nat -> Q) : nat -> Q :=
  fold_left (fun v c =>
    let old := current (fugacity0Idx + c)%nat in
    let val := v (fugacity0Idx + c)%nat in
    put1 (fugacity0Idx + c)
      (if Qltb old (minPhi c) && Qltb (minPhi c) val then minPhi c
       else if Qltb 0 old && Qltb val 0 then 0 else val) v)
    (seq 0 C) next.
Definition ncp_early_saturation (next : nat -> Q) : nat -> Q :=
  fold_left (fun v i =>
    let old := current (saturation0Idx + i)%nat in
    let val := v (saturation0Idx + i)%nat in
    put1 (saturation0Idx + i)
      (if Qltb old 1 && Qltb 1 val then 1
       else if Qltb 0 old && Qltb val 0 then 0 else val) v)
    (seq 0 (P - 1)) next.
Definition ncp_update : nat -> Q :=
  let next := fun j => current j - update j in
  let next := ncp_fugacities (ncp_pressure (ncp_saturations next)) in
  if early then ncp_early_saturation (ncp_early_fugacity next) else next.

(** ncpintensivequantities.hh 110-117: the saturations; the last one closes the sum. *)
Definition ncp_read_saturation (v : nat -> Q) (i : nat) : Q :=
  if (i =? P - 1)%nat then 1 - sum (seq 0 (P - 1)) (fun j => v (saturation0Idx + j)%nat)
  else v (saturation0Idx + i)%nat.
End Ncp.
