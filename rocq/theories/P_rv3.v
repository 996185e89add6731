(** C61: the values of time dependent parameters. *)
From Coq Require Import List Arith Bool Lia ZArith Reals Lra.
From Verif Require Import Base BaseNum BaseArr BaseNd M_process M_source M_rv S_process S_source S_mc L_process P_process2.
Import ListNotations.
Local Open Scope R_scope.

(** arrays are the same at all times, functions are called with the time, None is refused *)
Theorem C61_parameter (a : arr R) (f : R -> res (arr R)) t : param_at (IArr a) t = Ok a /\ param_at (IFun f) t = f t /\ param_at INone t = Err TypeError.
Proof. repeat split. Qed.
(** processes have their values at the points of the timeline; elsewhere, if interpolated linearly, those of the function
    that joins them, constant outside *)
Theorem C61_process (p : proc R) t : wf p -> increasing (pt p) -> exists a, param_at (IProc p) t = Ok a /\ shp a = tl (shp (px p)) /\
  (forall i r, (i < length (pt p))%nat -> t = nth i (pt p) 0 -> dat a r = dat (px p) (i :: r)) /\
  (forall r, pk p = Linear -> joins (pt p) (along p r) t (dat a r)).
Proof.
  intros W I. eexists. split; [reflexivity|]. split; [reflexivity|]. split.
  - intros i r L ->. exact (C34_nodes p None i r W I L).
  - intros r K. replace (dat (interp p None (ascalar t)) r) with (value p (Some Linear) t r) by (unfold value, interp; rewrite K; reflexivity).
    apply (C34_linear p t r W I).
Qed.
(** hence a distribution whose parameters are processes has, at a point of the timeline, their values at that point *)
Theorem C61_process_rv {D} (new : list (arr R) -> res D) (p : proc R) i : wf p -> increasing (pt p) -> (i < length (pt p))%nat ->
  exists h a, make_variable new [IProc p] = Ok (OfTime D h) /\ h (nth i (pt p) 0) = new [a] /\ shp a = tl (shp (px p)) /\ forall r, dat a r = dat (px p) (i :: r).
Proof.
  intros W I L. destruct (C61_process p (nth i (pt p) 0) W I) as (a & E & S & N & _). exists (fun t => rbind (params_at [IProc p] t) new), a.
  split; [reflexivity|]. split; [cbn [params_at]; rewrite E; reflexivity|]. split; [exact S|]. intro r. apply N; auto.
Qed.

(** values 1, 3 at times 0, 2 *)
Definition ex_proc : proc R := mkProc [0; 2] (mkArr [2%nat; 1%nat] (fun ix => nth (nth 0 ix 0%nat) [1; 3] 0)) Linear.
Example C61_ex_process : exists a, param_at (IProc ex_proc) 2 = Ok a /\ shp a = [1%nat] /\ dat a [0%nat] = 3.
Proof.
  destruct (C61_process ex_proc 2) as (a & E & S & N & _).
  - split; [discriminate|]. exists [1%nat]. reflexivity.
  - intros i j L1 L2. cbn [pt ex_proc length] in L2. destruct j as [|[|j]]; [lia| |lia]. assert (i = 0%nat) as -> by lia. cbn. lra.
  - exists a. split; [exact E|]. split; [exact S|]. rewrite (N 1%nat); [reflexivity|cbn; lia|reflexivity].
Qed.

Print Assumptions C61_parameter.
Print Assumptions C61_process.
Print Assumptions C61_process_rv.
