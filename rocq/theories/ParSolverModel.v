(** * The parallel stabilised BiCG solver

    Model of [ParallelBaseBackend] (/repo/opm/simulators/linalg/parallelbasebackend.hh),
    [ParallelBiCGStabSolverBackend]
    (/repo/opm/simulators/linalg/parallelbicgstabbackend.hh), [OverlappingPreconditioner]
    (/repo/opm/simulators/linalg/overlappingpreconditioner.hh) and [BiCGStabSolver::apply]
    (/repo/opm/simulators/linalg/bicgstabsolver.hh:120-330) as it runs on one of several
    processes, with [CombinedCriterion] (/repo/opm/simulators/linalg/combinedcriterion.hh).

    Simplifications: a block has one entry; arithmetic is exact; the tags of the collective
    operations tell the calls apart (MPI requires that all processes make the same ones in the
    same order).  The preconditioner of each process is an arbitrary function of the
    overlapping matrix; its [pre] and [post] do nothing.  Output, timers and the debug check
    of lines 147-157 are left out. *)

From Coq Require Import Arith List Bool QArith.
From Verif Require Import Num MpiModel MpiLift ExchangeModel GlobalIndexModel ForeignModel DomesticModel VectorModel
  PipelineModel OvMatrixModel.
From Verif Require BiCGModel.
Import ListNotations.
Local Open Scope nat_scope.

(** How the solver ends on one process: it returns, or one of its exceptions is thrown
    (bicgstabsolver.hh:200-201, 232-236, 288-292; overlappingpreconditioner.hh:91, 136, 173;
    parallelbasebackend.hh:328-329), or it reads or writes outside of a vector. *)
Inductive outcome : Type :=
| PReturned (ok : bool) (x : list Q) (c : BiCGModel.combined) (iterations : nat)
| PBreakdown
| PFailed
| PNotReady
| PUndefined.

(** The variables of the loop, bicgstabsolver.hh:173-193. *)
Record ploop : Type := mkPLoop {
  p_x : list Q; p_r : list Q; p_p : list Q; p_v : list Q; p_y : list Q; p_z : list Q;
  p_rho : Q; p_alpha : Q; p_omega : Q;
  p_crit : BiCGModel.combined; p_calls : nat; p_iter : nat
}.

(** A vector of the size n with the given entries. *)
Definition tabulate (n : nat) (f : nat -> Q) : list Q := map f (seq 0 n).

(** The minimum over all processes. *)
Definition minOver (l : list Q) : Q := fold_left (fun a b => if Qltb b a then b else a) l 1%Q.

Section Process.
Variable rank : nat.
Variable fo : foreignOverlap.
Variable dom : domestic.
Variable st : structure.
Variable buf : buffers.
Variable m : @values Q.

Notation P R := (proc (message Q) R).

(** [OverlappingBlockVector::sync], overlappingblockvector.hh:175-187. *)
Definition syncVector (x : list Q) : P (outcome + list Q) :=
  bind (forValues (sync fo dom 0%Q buf x)) (fun y =>
  Ret (match y with Some y => inr y | None => inl PUndefined end)).

(** [OverlappingOperator::apply], overlappingoperator.hh:57-61. *)
Definition applyOperator (x : list Q) : P (outcome + list Q) :=
  bind (forValues (apply 0%Q fo dom st Qplus Qmult buf m x)) (fun y =>
  Ret (match y with Some y => inr y | None => inl PUndefined end)).

(** [OverlappingScalarProduct::dot], overlappingscalarproduct.hh:58-70. *)
Definition scalarProduct (x y : list Q) : P Q := forScalar 0%Q (dot fo 0%Q Qplus Qmult rank x y).

(** The [k]-th call of the sequential preconditioner with a start vector and a right hand side: the
    values it writes, or nothing if it throws. *)
Variable prec : nat -> list Q -> list Q -> option (nat -> Q).

(** The agreement of all processes on the success, overlappingpreconditioner.hh:68-88, 110-130,
    149-169, parallelbasebackend.hh:313-329. *)
Definition agree (tag : nat) (success : bool) : P bool :=
  bind (forScalar 0%Q (Coll tag (if success then 1%Q else 0%Q) (fun ss => Ret (minOver ss))))
    (fun s => Ret (negb (Qeq_bool s 0))).

(** [OverlappingPreconditioner::pre], overlappingpreconditioner.hh:61-99: the solution is
    synchronised twice. *)
Definition precondPre (x y : list Q) : P (outcome + list Q * list Q) :=
  bind (agree 4 true) (fun success =>
  if success then
    bind (syncVector x) (fun x =>
    match x with
    | inl o => Ret (inl o)
    | inr x =>
        bind (syncVector x) (fun x =>
        match x with
        | inl o => Ret (inl o)
        | inr x =>
            bind (syncVector y) (fun y =>
            match y with
            | inl o => Ret (inl o)
            | inr y => Ret (inr (x, y))
            end)
        end)
    end)
  else Ret (inl PFailed)).

(** [OverlappingPreconditioner::apply], overlappingpreconditioner.hh:101-141. *)
Definition precondApply (k : nat) (x d : list Q) : P (outcome + list Q) :=
  let written := option_map (tabulate (length x)) (prec k x d) in
  match peerSet fo with
  | [] => Ret (match written with Some x => inr x | None => inl PFailed end)
  | _ =>
      bind (agree 3 (match written with Some _ => true | None => false end)) (fun success =>
      if success then
        match written with
        | Some x => syncVector x
        | None => Ret (inl PUndefined)
        end
      else Ret (inl PFailed))
  end.

(** [OverlappingPreconditioner::post], overlappingpreconditioner.hh:143-178. *)
Definition precondPost (x : list Q) : P (outcome + list Q) :=
  bind (agree 5 true) (fun success => if success then syncVector x else Ret (inl PFailed)).

(** [CombinedCriterion::updateErrors_], combinedcriterion.hh:188-209: first the process alone, then all
    of them. *)
Definition updateErrors (c : BiCGModel.combined) (change resid : list Q) : P BiCGModel.combined :=
  let e := fold_left nmax (map (fun q => nabs (Fin q)) resid) (Fin 0) in
  let stagnates := forallb (fun q => Qeq_bool q 0) change in
  bind (forScalar 0%Q (Coll 1 (fin_val e) (fun es => Ret (fold_left nmax (map Fin es) (Fin 0)))))
    (fun e =>
  bind (agree 2 stagnates) (fun stagnates =>
  Ret (BiCGModel.mkCombined (BiCGModel.cc_reduction c) (BiCGModel.cc_abs c) (BiCGModel.cc_max c)
         e (BiCGModel.cc_initial c) stagnates))).

(** [CombinedCriterion::setInitial], combinedcriterion.hh:116-126. *)
Definition setInitial (c : BiCGModel.combined) (sol resid : list Q) : P BiCGModel.combined :=
  bind (updateErrors c sol resid) (fun c =>
  let e := nmax (BiCGModel.cc_error c) (Fin BiCGModel.tiny) in
  Ret (BiCGModel.mkCombined (BiCGModel.cc_reduction c) (BiCGModel.cc_abs c) (BiCGModel.cc_max c) e e false)).

Variable b : list Q.
Variable breakdownEps : Q.

Definition small (q : Q) : bool := Qle_bool (if Qltb q 0 then - q else q) breakdownEps.

(** What follows the convergence check, bicgstabsolver.hh:254-273, 300-318. *)
Definition afterCheck (c : BiCGModel.combined) (x : list Q) (iter : nat) (next : ploop) : P (outcome + ploop) :=
  if BiCGModel.cc_converged c then
    bind (precondPost x) (fun x => Ret (inl (match x with inl o => o | inr x => PReturned true x c iter end)))
  else if BiCGModel.cc_failed c then Ret (inl (PReturned false x c iter))
  else Ret (inr next).

(** bicgstabsolver.hh:196-276: up to the first convergence check; n is the size of x, line 193. *)
Definition firstHalf (n : nat) (l : ploop) : P (outcome + ploop) :=
  bind (scalarProduct b (p_r l)) (fun rho_i =>
  if small (p_rho l) || small (p_omega l) then Ret (inl PBreakdown)
  else
    let beta := (rho_i / p_rho l * (p_alpha l / p_omega l))%Q in
    let p := tabulate n (fun i => nth i (p_r l) 0 + (nth i (p_v l) 0 * p_omega l - nth i (p_p l) 0) * (- beta))%Q in
    bind (precondApply (p_calls l) (p_y l) p) (fun y =>
    match y with
    | inl o => Ret (inl o)
    | inr y =>
        bind (applyOperator y) (fun v =>
        match v with
        | inl o => Ret (inl o)
        | inr v =>
            bind (scalarProduct b v) (fun denom =>
            if small denom then Ret (inl PBreakdown)
            else
              let alpha := (rho_i / denom)%Q in
              if small alpha then Ret (inl PBreakdown)
              else
                let h := tabulate n (fun i => nth i y 0 * alpha + nth i (p_x l) 0)%Q in
                let s := tabulate n (fun i => nth i (p_r l) 0 - nth i v 0 * alpha)%Q in
                bind (updateErrors (p_crit l) y s) (fun c =>
                afterCheck c h (p_iter l)
                  (mkPLoop h s p v y (p_z l) rho_i alpha (p_omega l) c (1 + p_calls l) (p_iter l))))
        end)
    end)).

(** bicgstabsolver.hh:278-325: the second half. *)
Definition secondHalf (n : nat) (l : ploop) : P (outcome + ploop) :=
  let s := p_r l in
  bind (precondApply (p_calls l) s s) (fun z =>
  match z with
  | inl o => Ret (inl o)
  | inr z =>
      bind (applyOperator z) (fun t =>
      match t with
      | inl o => Ret (inl o)
      | inr t =>
          bind (scalarProduct t t) (fun denom =>
          if small denom then Ret (inl PBreakdown)
          else
            bind (scalarProduct t s) (fun ts =>
            let omega := (ts / denom)%Q in
            if small omega then Ret (inl PBreakdown)
            else
              let x := tabulate n (fun i => nth i (p_x l) 0 + omega * nth i z 0)%Q in
              bind (updateErrors (p_crit l) z s) (fun c =>
              afterCheck c x (p_iter l)
                (mkPLoop x (tabulate n (fun i => nth i s 0 + (- omega) * nth i t 0)%Q) (p_p l) (p_v l) t z
                   (p_rho l) (p_alpha l) omega c (1 + p_calls l) (1 + p_iter l)))))
      end)
  end).

(** bicgstabsolver.hh:195-329: at most [k] iterations. *)
Fixpoint iterate (n k : nat) (l : ploop) : P outcome :=
  match k with
  | O => Ret (PReturned false (p_x l) (p_crit l) (p_iter l))
  | S k' =>
      bind (firstHalf n l) (fun s =>
      match s with
      | inl o => Ret o
      | inr l =>
          bind (secondHalf n l) (fun s =>
          match s with
          | inl o => Ret o
          | inr l => iterate n k' l
          end)
      end)
  end.

(** [BiCGStabSolver::apply], bicgstabsolver.hh:120-330. *)
Definition solve (maxIterations : nat) (c0 : BiCGModel.combined) : P outcome :=
  let n := domSize dom in
  let x := tabulate n (fun _ => 0%Q) in
  bind (precondPre x b) (fun xr =>
  match xr with
  | inl o => Ret o
  | inr (x, r) =>
      bind (setInitial c0 x r) (fun c =>
      if BiCGModel.cc_converged c then Ret (PReturned true x c 0)
      else
        let zero := tabulate n (fun _ => 0%Q) in
        iterate n maxIterations (mkPLoop x r zero zero x x 1 1 1 c 0 0))
  end).
End Process.

Arguments agree : simpl never.
Arguments minOver : simpl never.
Arguments syncVector : simpl never.
Arguments applyOperator : simpl never.
Arguments scalarProduct : simpl never.
Arguments precondApply : simpl never.
Arguments precondPre : simpl never.
Arguments precondPost : simpl never.
Arguments updateErrors : simpl never.
Arguments setInitial : simpl never.
Arguments firstHalf : simpl never.
Arguments secondHalf : simpl never.
Arguments afterCheck : simpl never.

(** What the caller gets to see on one process. *)
Record solved : Type := mkSolved {
  so_overlap : overlapObject;
  so_structure : structure;
  so_values : option (@values Q);
  so_outcome : outcome
}.

Section Backend.
Variable rank size : nat.
Variable pt : partition.
Variable pb : peerBlackLists.
Variable maxDistance maxRank : nat.
Variable native : nat -> list (nat * Q).

(** Whether the preconditioner can be set up for the overlapping matrix, and what it then does. *)
Variable ready : structure -> @values Q -> bool.
Variable prec : structure -> @values Q -> nat -> list Q -> list Q -> option (nat -> Q).
Variable breakdownEps : Q.
Variable maxIterations : nat.
Variable c0 : BiCGModel.combined.

(** The result is copied to the native vector, parallelbasebackend.hh:280. *)
Definition toCaller (o : overlapObject) (r : outcome) : outcome :=
  match r with
  | PReturned ok x c it => PReturned ok (assignTo (ovAsForeign rank pt o) 0%Q (numNative pt) x) c it
  | r => r
  end.

(** [prepare], [setResidual], [setMatrix] and [solve], parallelbasebackend.hh:182-284, 311-333, in the
    order of newtonmethod.hh:293-330, for the native right hand side v. *)
Definition buildAndSolve (v : list Q) : proc (message Q) solved :=
  bind (buildOverlap rank size pt pb maxDistance maxRank) (fun o =>
  bind (newMatrix rank pt o) (fun st =>
  bind (newVector rank pt o) (fun buf =>
  bind (forValues (assignAddBorder (ovAsForeign rank pt o) (ovDomestic o) 0%Q Qplus buf (toNative pt) v)) (fun b =>
  bind (setMatrix 0%Q Qplus rank pt native o st) (fun m =>
  match b, m with
  | Some b, Some m =>
      bind (agree 6 (ready st m)) (fun ok =>
      if ok then
        bind (solve rank (ovAsForeign rank pt o) (ovDomestic o) st buf m (prec st m) b breakdownEps maxIterations c0)
          (fun r => Ret (mkSolved o st (Some m) (toCaller o r)))
      else Ret (mkSolved o st (Some m) PNotReady))
  | _, _ => Ret (mkSolved o st m PUndefined)
  end))))).
End Backend.
