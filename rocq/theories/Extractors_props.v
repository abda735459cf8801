(** C48: the dictionaries and matrices extracted from an operator give it back. *)
From Coq Require Import ZArith NArith List Bool String Lia Sorted QArith Qcanon.
From Verif Require Import Base Indices Scalar ScalarInst Fock OpModel OpExpr OpUnique Hilbert Extractors ExtractorsSpec Extractors_proofs Extractors_block AtomDiag_ex.
Import ListNotations.
Local Open Scope nat_scope.
Local Open Scope K_scope.

(** extract_h_dict: the dictionary has distinct keys and no vanishing value, and
    sum_{ij} h_{ij} c_dag(i) c(j), computed in the operator algebra, is the operator itself; with ignore_irrelevant, it is the
    part of the operator made of the quadratic terms.  Without it, any other term is an exception. *)
Theorem C48_h_dict : forall (S : scalar_ops) (ignore : bool) (h : omap S), scalar_laws S -> wf h ->
  exists rel, (forall mc, In mc h -> (rel mc = true <-> is_quadratic (fst mc))) /\
    (ignore = true \/ Forall (fun mc => is_quadratic (fst mc)) h ->
       exists d, extract_h_dict S ignore h = Ok d /\ proper_dict S d /\ eval (dict_sum S (quadratic S) d) = Some (filter rel h)) /\
    (ignore = false -> ~ Forall (fun mc => is_quadratic (fst mc)) h -> extract_h_dict S ignore h = Throw).
Proof. intros S ignore h L W. exact (h_extracts S L ignore h W). Qed.
Print Assumptions C48_h_dict.

(** the same for extract_U_dict2: 1/2 sum_{ij} U_{ij} n(i) n(j) *)
Theorem C48_U_dict2 : forall (S : scalar_ops) (half : S) (ignore : bool) (h : omap S), scalar_laws S -> half + half = k1 -> wf h ->
  exists rel, (forall mc, In mc h -> (rel mc = true <-> is_density_density (fst mc))) /\
    (ignore = true \/ Forall (fun mc => is_density_density (fst mc)) h ->
       exists d, extract_U_dict2 S ignore h = Ok d /\ proper_dict S d /\
         eval (EMulS (dict_sum S (density_density S) d) half) = Some (filter rel h)) /\
    (ignore = false -> ~ Forall (fun mc => is_density_density (fst mc)) h -> extract_U_dict2 S ignore h = Throw).
Proof. intros S half ignore h L H W. exact (U2_extracts S L half H ignore h W). Qed.
Print Assumptions C48_U_dict2.

(** the same for extract_U_dict4: 1/2 sum_{ijkl} U_{ijkl} c_dag(i) c_dag(j) c(l) c(k) *)
Theorem C48_U_dict4 : forall (S : scalar_ops) (half : S) (ignore : bool) (h : omap S), scalar_laws S -> half + half = k1 -> wf h ->
  exists rel, (forall mc, In mc h -> (rel mc = true <-> is_two_particle (fst mc))) /\
    (ignore = true \/ Forall (fun mc => is_two_particle (fst mc)) h ->
       exists d, extract_U_dict4 S half ignore h = Ok d /\ proper_dict S d /\
         eval (EMulS (dict_sum S (two_particle S) d) half) = Some (filter rel h)) /\
    (ignore = false -> ~ Forall (fun mc => is_two_particle (fst mc)) h -> extract_U_dict4 S half ignore h = Throw).
Proof. intros S half ignore h L H W. exact (U4_extracts S L half H ignore h W). Qed.
Print Assumptions C48_U_dict4.

(** dict_to_matrix: the element whose subscripts are the positions of the key's indices is the value stored under the key,
    every other element is zero; an index that is not in the operator set is an exception. *)
Theorem C48_dict_to_matrix : forall (S : scalar_ops) (fs : fops) (d : dict S), NoDup fs -> NoDup (map fst d) ->
  ((forall k x i, In (k, x) d -> In i k -> In i fs) ->
     exists f, dict_to_matrix S d fs = Ok f /\
       forall k q, names fs k q -> (forall x, In (k, x) d -> f q = x) /\ (~ In k (map fst d) -> f q = k0)) /\
  ((exists k x i, In (k, x) d /\ In i k /\ ~ In i fs) -> dict_to_matrix S d fs = Throw).
Proof. intros S fs d N Nd. split; [intros H; exact (assign_ok S fs d N Nd H (fun _ => k0))|intros H; exact (assign_bad S fs d H (fun _ => k0))]. Qed.
Print Assumptions C48_dict_to_matrix.

(** filter_op keeps exactly the terms of the given length. *)
Theorem C48_filter_op : forall (S : scalar_ops) (h : omap S) (len : nat), scalar_laws S -> wf h ->
  filter_op S h len = Some (filter (fun mc => Nat.eqb (List.length (fst mc)) len) h).
Proof. intros S h len L W. exact (filter_ok S L h len W). Qed.
Print Assumptions C48_filter_op.

(** block_matrix_from_op of an operator made of terms c_dag(name, i) c(name, j) with name a block of gf_struct: the matrix has
    the shape of gf_struct, its elements are the coefficients, and op_from_block_matrix gives the operator back. *)
Theorem C48_block_of_op : forall (S : scalar_ops) (gs : gf_struct) (ignore : bool) (h : omap S), scalar_laws S -> NoDup (map fst gs) ->
  wf h -> Forall (fun mc => block_term gs (fst mc)) h ->
  exists M, block_matrix_from_op S gs ignore h = Ok M /\ agrees S gs M /\
    (forall b name n i j, nth_error gs b = Some (name, n) -> i < n -> j < n -> entry S M b i j = coef S (hopping name i j) h) /\
    op_from_block_matrix S gs M = Ok (Some h).
Proof. intros S gs ignore h L. exact (op_round_trip S L gs ignore h). Qed.
Print Assumptions C48_block_of_op.

(** op_from_block_matrix of any block matrix of the shape of gf_struct is sum_b sum_ij M_b(i,j) c_dag(b,i) c(b,j), and
    block_matrix_from_op gives the matrix back. *)
Theorem C48_op_of_block : forall (S : scalar_ops) (gs : gf_struct) (M : bmat S), scalar_laws S -> NoDup (map fst gs) -> agrees S gs M ->
  exists h, op_from_block_matrix S gs M = Ok (Some h) /\ wf h /\ Forall (fun mc => block_term gs (fst mc)) h /\
    (forall b name n i j, nth_error gs b = Some (name, n) -> i < n -> j < n -> coef S (hopping name i j) h = entry S M b i j) /\
    forall ignore, block_matrix_from_op S gs ignore h = Ok M.
Proof. intros S gs M L. exact (matrix_round_trip S L gs M). Qed.
Print Assumptions C48_op_of_block.

(** ---- concrete cases ---- *)
Definition up (i : Z) : indices := [LStr "up"; LInt i].
Definition dn (i : Z) : indices := [LStr "dn"; LInt i].
Definition gs2 : gf_struct := [("up"%string, 2); ("dn"%string, 1)].
Definition get (e : expr QS) : omap QS := match eval e with Some h => h | None => [] end.
(** 3 c_dag(up,0) c(up,1) - 2 n(dn,0) *)
Definition h_ex : expr QS := EAdd (EMulS (EMul (ECdag (up 0)) (EC (up 1))) (q 3 : QS)) (EMulS (EN (dn 0)) (q (-2) : QS)).
(** 5 n(up,0) n(dn,0) *)
Definition U_ex : expr QS := EMulS (EMul (EN (up 0)) (EN (dn 0))) (q 5 : QS).
Definition qhalf : QS := Q2Qc (1 # 2).

Example C48_ex_h : exists d, extract_h_dict QS false (get h_ex) = Ok d /\ List.length d = 2 /\ Forall (fun mc => block_term gs2 (fst mc)) (get h_ex).
Proof.
  eexists. split; [vm_compute; reflexivity|]. split; [reflexivity|]. assert (E : map fst (get h_ex) = [hopping "dn" 0 0; hopping "up" 0 1]) by (vm_compute; reflexivity).
  apply Forall_forall. intros mc I. apply (in_map fst) in I. rewrite E in I. destruct I as [<-|[<-|[]]].
  - exists "dn"%string, 1, 0, 0. cbn. auto.
  - exists "up"%string, 2, 0, 1. cbn. auto.
Qed.
Example C48_ex_U : (exists d, extract_U_dict2 QS false (get U_ex) = Ok d /\ List.length d = 2) /\ (exists d, extract_U_dict4 QS qhalf false (get U_ex) = Ok d /\ List.length d = 4) /\
  extract_U_dict2 QS false (get h_ex) = Throw /\ qhalf + qhalf = k1.
Proof. repeat split; try (eexists; split; [vm_compute; reflexivity|reflexivity]). apply Qc_is_canon. reflexivity. Qed.

(** Not what the documentation says: the condition of block_matrix_from_op reads "A and B ... and E or F", so an operator that is
    not of block form is not always rejected.  A hopping between two blocks, c_dag(up,0) c(dn,0), is stored as if it were
    c_dag(up,0) c(up,0), so op_from_block_matrix gives another operator; a quartic term is accepted too. *)
Theorem C48_block_rejects_refuted :
  (exists h : omap QS, wf h /\ ~ Forall (fun mc => block_term gs2 (fst mc)) h /\
     exists M, block_matrix_from_op QS gs2 false h = Ok M /\ forall h', op_from_block_matrix QS gs2 M = Ok (Some h') -> h' <> h) /\
  (exists h : omap QS, wf h /\ (exists m c, In (m, c) h /\ List.length m = 4) /\ exists M, block_matrix_from_op QS gs2 false h = Ok M) /\
  (exists h : omap QS, wf h /\ h <> [] /\ block_matrix_from_op QS gs2 false h = UB).
Proof.
  assert (One : forall m, normal m -> wf [(m, (k1 : QS))]).
  { intros m N. split; [repeat constructor|]. constructor; [|constructor]. split; [exact N|]. apply (sl_nontrivial QS QS_laws). }
  split; [|split].
  - exists [([cd (up 0); ca (dn 0)], (k1 : QS))]. split; [|split].
    + apply One. repeat constructor.
    + intros F. inversion F as [|? ? (name & n & i & j & _ & _ & _ & Em) _]; subst. cbn [fst] in Em. unfold hopping, cd, ca, up, dn in Em. congruence.
    + eexists. split; [vm_compute; reflexivity|]. intros h' E C. subst h'. revert E. vm_compute. intros E. discriminate E.
  - exists [([cd (dn 0); cd (up 0); ca (up 0); ca (dn 0)], (k1 : QS))]. split; [apply One; repeat constructor|]. split; [eexists; eexists; split; [left; reflexivity|reflexivity]|].
    eexists. vm_compute. reflexivity.
  - exists [([], (k1 : QS))]. split; [apply One; constructor|]. split; [discriminate|]. vm_compute. reflexivity.
Qed.
Print Assumptions C48_block_rejects_refuted.
