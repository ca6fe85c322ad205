(** The stabilised bi-conjugate gradient solver and the convergence criteria. Models
    opm/simulators/linalg/bicgstabsolver.hh, combinedcriterion.hh,
    weightedresidreductioncriterion.hh, residreductioncriterion.hh and fixpointcriterion.hh. *)
From Coq Require Export List ZArith QArith Lia Lqa Bool Arith.
From Verif Require Export Num.
Export ListNotations.
Open Scope Q_scope.

(** ** BiCGStab *)
Definition vec := nat -> Q.       (* entries by index *)
Definition vzero : vec := fun _ => 0.
(** [y += a*x] *)
Definition axpy (a : Q) (x y : vec) : vec := fun i => y i + a * x i.

(** What a convergence criterion sees: a state of its own, the initial solution and residual, and after
    every update the current solution, a vector indicating changes and the current residual
    (convergencecriterion.hh). *)
Record criterion (St : Type) := mkCrit {
  setInitial : St -> vec -> vec -> St;
  updateCrit : St -> vec -> vec -> vec -> St;
  converged : St -> bool;
  failed : St -> bool
}.
Arguments setInitial {St}. Arguments updateCrit {St}. Arguments converged {St}. Arguments failed {St}.

(** How [apply] ends: the value returned, the vector [x], the state of the criterion and the number of
    iterations in the report; or an exception. *)
Inductive result (St : Type) := Returned (ok : bool) (x : vec) (c : St) (iterations : nat) | Breakdown.
Arguments Returned {St}. Arguments Breakdown {St}.

Section Solver.
Variable St : Type.
Variable crit : criterion St.
Variable A : vec -> vec.                    (* apply of the linear operator *)
Variable dot : vec -> vec -> Q.             (* scalar product *)
(** The preconditioner: its [k]-th call with a start vector and a right hand side. It may have a state,
    hence the number. [pre] and [post] are taken as leaving the vectors alone (the code says it relies
    on that for [pre]; it is checked in debug mode only). *)
Variable K : nat -> vec -> vec -> vec.
Variable b : vec.
Variable breakdownEps : Q.

Definition small (q : Q) : bool := Qle_bool (if Qltb q 0 then - q else q) breakdownEps.

(** The variables of the loop, bicgstabsolver.hh 173-193. [r] and [s], and [x] and [h], are the same
    objects, as are [y] and [t]. *)
Record loop := mkLoop {
  l_x : vec; l_r : vec; l_p : vec; l_v : vec; l_y : vec; l_z : vec;
  l_rho : Q; l_alpha : Q; l_omega : Q; l_crit : St; l_calls : nat; l_iter : nat
}.
Inductive step := Done (r : result St) | Next (l : loop).

(** bicgstabsolver.hh 196-276: up to the first convergence check. *)
Definition firstHalf (l : loop) : step :=
  let rho_i := dot b (l_r l) in
  if small (l_rho l) || small (l_omega l) then Done Breakdown
  else
    let beta := (rho_i / l_rho l) * (l_alpha l / l_omega l) in
    let p : vec := fun i => l_r l i + (l_v l i * l_omega l - l_p l i) * (- beta) in
    let y := K (l_calls l) (l_y l) p in
    let v := A y in
    let denom := dot b v in
    if small denom then Done Breakdown
    else
      let alpha := rho_i / denom in
      if small alpha then Done Breakdown
      else
        let h : vec := fun i => y i * alpha + l_x l i in
        let s : vec := fun i => l_r l i - v i * alpha in
        let c := updateCrit crit (l_crit l) h y s in
        if converged crit c then Done (Returned true h c (l_iter l))
        else if failed crit c then Done (Returned false h c (l_iter l))
        else Next (mkLoop h s p v y (l_z l) rho_i alpha (l_omega l) c (1 + l_calls l) (l_iter l)).
(** bicgstabsolver.hh 278-325: the second half. The convergence check happens before the residual is
    updated. *)
Definition secondHalf (l : loop) : step :=
  let s := l_r l in
  let z := K (l_calls l) s s in
  let t := A z in
  let denom := dot t t in
  if small denom then Done Breakdown
  else
    let omega := dot t s / denom in
    if small omega then Done Breakdown
    else
      let x := axpy omega z (l_x l) in
      let c := updateCrit crit (l_crit l) x z s in
      if converged crit c then Done (Returned true x c (l_iter l))
      else if failed crit c then Done (Returned false x c (l_iter l))
      else Next (mkLoop x (axpy (- omega) t s) (l_p l) (l_v l) t z (l_rho l) (l_alpha l) omega c (1 + l_calls l) (1 + l_iter l)).
(** bicgstabsolver.hh 195-329: at most [n] iterations. *)
Fixpoint iterate (n : nat) (l : loop) : result St :=
  match n with
  | O => Returned false (l_x l) (l_crit l) (l_iter l)
  | S n' => match firstHalf l with
            | Done r => r
            | Next l' => match secondHalf l' with Done r => r | Next l'' => iterate n' l'' end
            end
  end.
(** bicgstabsolver.hh 120-330. *)
Definition apply (maxIterations : nat) (c0 : St) : result St :=
  let c := setInitial crit c0 vzero b in
  if converged crit c then Returned true vzero c 0
  else iterate maxIterations (mkLoop vzero b vzero vzero vzero vzero 1 1 1 c 0 0).
End Solver.

(** ** Convergence criteria *)
(** [std::numeric_limits<double>::min()*1e10]; the exact value is rounded to a double in the code. *)
Definition tiny : Q := 10000000000 # (2 ^ 1022).
(** The maximum over the entries held by all processes, first within each process and then over the
    processes; each process starts at 0. *)
Definition maxOver (l : list (list num)) : num :=
  fold_left nmax (map (fun p => fold_left nmax p (Fin 0)) l) (Fin 0).

(** combinedcriterion.hh. *)
Record combined := mkCombined {
  cc_reduction : num; cc_abs : num; cc_max : num;       (* the tolerances *)
  cc_error : num; cc_initial : num; cc_stagnates : bool
}.
(** combinedcriterion.hh 188-209. The vectors are given as the lists of the entries per process. *)
Definition cc_updateErrors (c : combined) (change resid : list (list num)) : combined :=
  mkCombined (cc_reduction c) (cc_abs c) (cc_max c)
    (maxOver (map (map nabs) resid)) (cc_initial c)
    (forallb (forallb (fun x => match x with Fin q => Qeq_bool q 0 | _ => false end)) change).
(** combinedcriterion.hh 116-126. *)
Definition cc_setInitial (c : combined) (sol resid : list (list num)) : combined :=
  let c := cc_updateErrors c sol resid in
  let e := nmax (cc_error c) (Fin tiny) in
  mkCombined (cc_reduction c) (cc_abs c) (cc_max c) e e false.
(** combinedcriterion.hh 91-92, 137-150. *)
Definition cc_converged (c : combined) : bool :=
  nleb (ndiv (cc_error c) (nmax (Fin (1 # 10^20)) (cc_initial c))) (cc_reduction c) || nleb (cc_error c) (cc_abs c).
Definition cc_failed (c : combined) : bool :=
  negb (cc_converged c) && (cc_stagnates c || nltb (cc_max c) (cc_error c)).

(** weightedresidreductioncriterion.hh. The weights are 1 if none are set. *)
Record weighted := mkWeighted {
  wc_weights : option (list (list num));
  wc_reduction : num; wc_fixpoint : num; wc_abs : num; wc_max : num;
  wc_error : num; wc_initial : num; wc_fperror : num; wc_last : list (list num)
}.
Definition zipWith {X Y Z} (f : X -> Y -> Z) (l : list X) (m : list Y) : list Z := map (fun p => f (fst p) (snd p)) (combine l m).
(** weightedresidreductioncriterion.hh 255-274. *)
Definition wc_updateErrors (c : weighted) (sol resid : list (list num)) : weighted :=
  let r := map (map nabs) resid in
  let r := match wc_weights c with None => r | Some w => zipWith (zipWith nmul) w r end in
  mkWeighted (wc_weights c) (wc_reduction c) (wc_fixpoint c) (wc_abs c) (wc_max c)
    (maxOver r) (wc_initial c)
    (maxOver (zipWith (zipWith (fun cur last => ndiv (nabs (nadd cur (nopp last))) (nmax (Fin 1) cur))) sol (wc_last c)))
    sol.
(** weightedresidreductioncriterion.hh 169-182. *)
Definition wc_setInitial (c : weighted) (sol resid : list (list num)) : weighted :=
  let c := wc_updateErrors (mkWeighted (wc_weights c) (wc_reduction c) (wc_fixpoint c) (wc_abs c) (wc_max c) (wc_error c) (wc_initial c) (wc_fperror c) sol) sol resid in
  let e := nmax (wc_error c) (Fin (1 # 10^20)) in
  mkWeighted (wc_weights c) (wc_reduction c) (wc_fixpoint c) (wc_abs c) (wc_max c) e e (Fin (inject_Z (10^100))) sol.
(** weightedresidreductioncriterion.hh 142-143, 198-215. *)
Definition wc_converged (c : weighted) : bool :=
  nleb (ndiv (wc_error c) (nmax (Fin (1 # 10^20)) (wc_initial c))) (wc_reduction c) || nleb (wc_error c) (wc_abs c).
Definition wc_failed (c : weighted) : bool :=
  (negb (wc_converged c) && nleb (wc_fperror c) (wc_fixpoint c)) || nltb (wc_max c) (wc_error c).

(** residreductioncriterion.hh 77-109: the norm comes from the scalar product. *)
Record reduction := mkReduction { rc_tolerance : num; rc_initial : num; rc_defect : num }.
Section Norm.
Variable norm : list (list num) -> num.
Definition rc_setInitial (c : reduction) (resid : list (list num)) : reduction :=
  mkReduction (rc_tolerance c) (nmax (norm resid) (Fin tiny)) (norm resid).
Definition rc_update (c : reduction) (resid : list (list num)) : reduction :=
  mkReduction (rc_tolerance c) (rc_initial c) (norm resid).
End Norm.
Definition rc_converged (c : reduction) : bool := nleb (ndiv (rc_defect c) (rc_initial c)) (rc_tolerance c).
(** The sum of the squares over all processes, of which the norm is the root
    (overlappingscalarproduct.hh 56-88; here every entry counts). *)
Definition sumSquares (l : list (list num)) : num :=
  fold_left nadd (map (fun p => fold_left (fun s x => nadd s (nmul x x)) p (Fin 0)) l) (Fin 0).

(** fixpointcriterion.hh 131-168. *)
Record fixpoint := mkFixpoint { fc_weights : option (list (list num)); fc_tolerance : num; fc_delta : num; fc_last : list (list num) }.
Definition fc_setInitial (c : fixpoint) (sol : list (list num)) : fixpoint :=
  mkFixpoint (fc_weights c) (fc_tolerance c) (nmul (Fin 1000) (fc_tolerance c)) sol.
Definition fc_update (c : fixpoint) (sol : list (list num)) : fixpoint :=
  let d := zipWith (zipWith (fun cur last => nabs (nadd cur (nopp last)))) sol (fc_last c) in
  let d := match fc_weights c with None => d | Some w => zipWith (zipWith nmul) w d end in
  mkFixpoint (fc_weights c) (fc_tolerance c) (maxOver d) sol.
Definition fc_converged (c : fixpoint) : bool := nltb (fc_delta c) (fc_tolerance c).

(** The combined criterion as a criterion of the sequential solver for vectors with [n] entries. *)
Definition entries (n : nat) (v : vec) : list (list num) := [map (fun i => Fin (v i)) (seq 0 n)].
Definition combinedCriterion (n : nat) : criterion combined :=
  mkCrit combined
    (fun c x r => cc_setInitial c (entries n x) (entries n r))
    (fun c _ d r => cc_updateErrors c (entries n d) (entries n r))
    cc_converged cc_failed.
Definition fixpointCriterion (n : nat) : criterion fixpoint :=
  mkCrit fixpoint
    (fun c x _ => fc_setInitial c (entries n x))
    (fun c x _ _ => fc_update c (entries n x))
    fc_converged (fun _ => false).
