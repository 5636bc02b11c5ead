(** C63, geometry: the integration weights, shape gradients and points that the kernels see. *)
From Coq Require Import List Arith Lia ZArith.
From Verif Require Import Base Csr_Model Assembly_Model Dof_Model Kernel_Model Kernel_Spec Kernel_Proofs Kernel_Props.
Import ListNotations.

(** ** Specification *)
(** [D] is the derivative of the map that carries the reference element to cell [c], where [dN n e] is the derivative of the [n]-th shape
    function along the [e]-th reference axis. *)
Definition map_derivative {K : CRing} (dim : nat) (f : fe K) (c : nat) (dN : nat -> nat -> K) (D : list (list K)) : Prop :=
  length D = dim /\ (forall i, i < dim -> length (nth i D []) = dim) /\
  forall i e, i < dim -> e < dim -> get2 D i e = Sum (fe_nn f) (fun n => cmul (get2 (fe_points f) (nth n (nth c (fe_cells f) []) 0) i) (dN n e)).

Section Lemmas.
  Variable K : CRing.
  Add Ring KRg : (cth K).
  Local Open Scope ring_K.
  Lemma as_tab n (l : list K) (g : nat -> K) : length l = n -> (forall i, i < n -> get l i = g i) -> l = tab n g.
  Proof using. intros L E. apply (nth_ext _ _ 0 0); [rewrite tab_length; exact L|]. intros i Hi. rewrite nth_tab by lia. apply E. lia. Qed.
  Lemma as_tab2 n m (D : list (list K)) (g : nat -> nat -> K) : length D = n -> (forall i, i < n -> length (nth i D []) = m) -> (forall i e, i < n -> e < m -> get2 D i e = g i e) ->
    D = tab n (fun i => tab m (g i)).
  Proof using.
    intros L W E. apply (nth_ext _ _ [] []); [rewrite tab_length; exact L|]. intros i Hi. rewrite nth_tab by lia. apply as_tab; [apply W; lia|]. intros e He. apply E; [lia|exact He].
  Qed.
  Lemma jac_unique dim (f : fe K) c q (D : list (list K)) : map_derivative dim f c (fe_sgref f q) D -> jac dim f c q = D.
  Proof using. intros (L & W & E). symmetry. unfold jac. apply as_tab2; assumption. Qed.
  Lemma face_jac_unique dim (f : fe K) c g q (D : list (list K)) : map_derivative dim f c (fe_fsgref f g q) D -> face_jac dim f c g q = D.
  Proof using. intros (L & W & E). symmetry. unfold face_jac. apply as_tab2; assumption. Qed.
  Lemma chain dim (r : nat -> K) (I D : list (list K)) e : e < dim -> (forall a, a < dim -> Sum dim (fun d => get2 I a d * get2 D d e) = if (a =? e)%nat then 1 else 0) ->
    Sum dim (fun d => Sum dim (fun a => r a * get2 I a d) * get2 D d e) = r e.
  Proof using.
    intros He H. rewrite (Sum_ext K _ _ (fun d => Sum dim (fun a => r a * (get2 I a d * get2 D d e)))).
    - rewrite Sum_swap. rewrite (Sum_ext K _ _ (fun a => if (a =? e)%nat then r a else 0)); [apply (Sum_single K dim e r He)|].
      intros a Ha. rewrite Sum_mul_l, (H a Ha). destruct (a =? e)%nat; ring.
    - intros d Hd. rewrite <- Sum_mul_r. apply Sum_ext. intros a Ha. ring.
  Qed.
End Lemmas.

(** ** Theorems *)
(** Volume: at each quadrature point the weight is the determinant of the map's derivative there times the quadrature weight; the shape
    gradients obey the chain rule; the points are the images of the reference points. *)
Theorem C63_volume_geometry :
  forall (K : CRing) dim det inv (f : fe K) c q (D : list (list K)), map_derivative dim f c (fe_sgref f q) D ->
  JxW dim det f c q = cmul (det D) (fe_w f q) /\
  (forall n d, v_grad_JxW dim det inv f c q n d = cmul (shape_grad dim inv f c q n d) (cmul (det D) (fe_w f q))) /\
  (forall n e, e < dim -> (forall a b, a < dim -> b < dim -> Sum dim (fun d => cmul (get2 (inv D) a d) (get2 D d b)) = if a =? b then c1 else c0) ->
     Sum dim (fun d => cmul (shape_grad dim inv f c q n d) (get2 D d e)) = fe_sgref f q n e) /\
  length (quad_point dim f c q) = dim /\
  (forall i, i < dim -> get (quad_point dim f c q) i = Sum (fe_nn f) (fun n => cmul (fe_sv f q n) (get2 (fe_points f) (nth n (nth c (fe_cells f) []) 0) i))).
Proof.
  intros K dim det inv f c q D H. pose proof (jac_unique K dim f c q D H) as E. unfold v_grad_JxW, JxW, shape_grad. rewrite E. repeat split.
  - intros n e He I. apply (chain K dim (fe_sgref f q n) (inv D) D e He). intros a Ha. apply I; assumption.
  - apply tab_length.
  - intros i Hi. unfold quad_point. rewrite get_tab by exact Hi. reflexivity.
Qed.
Print Assumptions C63_volume_geometry.

(** Surface: Nanson's formula with the map's derivative at the face point and the reference normal of that face. *)
Theorem C63_surface_geometry :
  forall (K : CRing) dim det inv norm (f : fe K) c g q (D : list (list K)) (nv : list K), map_derivative dim f c (fe_fsgref f g q) D ->
  length nv = dim -> (forall d, d < dim -> get nv d = Sum dim (fun e => cmul (fe_fnormal f g e) (get2 (inv D) e d))) ->
  nanson dim det inv norm f c g q = cmul (cmul (norm nv) (det D)) (fe_fw f g q) /\
  (forall n e, e < dim -> (forall a b, a < dim -> b < dim -> Sum dim (fun d => cmul (get2 (inv D) a d) (get2 D d b)) = if a =? b then c1 else c0) ->
     Sum dim (fun d => cmul (face_shape_grad dim inv f c g q n d) (get2 D d e)) = fe_fsgref f g q n e) /\
  length (face_point dim f c g q) = dim /\
  (forall i, i < dim -> get (face_point dim f c g q) i = Sum (fe_nn f) (fun n => cmul (fe_fsv f g q n) (get2 (fe_points f) (nth n (nth c (fe_cells f) []) 0) i))).
Proof.
  intros K dim det inv norm f c g q D nv H L N. pose proof (face_jac_unique K dim f c g q D H) as E. unfold nanson, face_shape_grad. rewrite E.
  rewrite <- (as_tab K dim nv _ L N). repeat split.
  - intros n e He I. apply (chain K dim (fe_fsgref f g q n) (inv D) D e He). intros a Ha. apply I; assumption.
  - apply tab_length.
  - intros i Hi. unfold face_point. rewrite get_tab by exact Hi. reflexivity.
Qed.
Print Assumptions C63_surface_geometry.

(** Concrete case: a quadratic bar with nodes at 0, 3 and 1 (the middle one off centre) and two quadrature points with different derivatives. *)
Definition kg_fe : fe ZK :=
  @Build_fe ZK 1 3 [[0]; [3]; [1]]%Z [[0; 1; 2]] (fun q n => nth n (nth q [[1; 0; 0]; [0; 1; 0]] [])%Z 0%Z)
    (fun q n _ => nth n (nth q [[-3; -1; 4]; [1; 3; -4]] [])%Z 0%Z) (fun q => if q =? 0 then 1%Z else 2%Z)
    (fun g _ n => if n =? g then 1%Z else 0%Z) (fun g _ n _ => nth n (nth g [[-3; -1; 4]; [1; 3; -4]] [])%Z 0%Z) (fun g _ => if g =? 0 then (-1)%Z else 1%Z) (fun _ _ => 1%Z).
Example C63_example_geometry :
  map_derivative (K := ZK) 1 kg_fe 0 (fe_sgref kg_fe 0) [[1%Z]] /\ map_derivative (K := ZK) 1 kg_fe 0 (fe_sgref kg_fe 1) [[5%Z]] /\
  map (JxW (K := ZK) 1 (fun D => nth 0 (nth 0 D []) 0%Z) kg_fe 0) [0; 1] = [1; 10]%Z /\
  map_derivative (K := ZK) 1 kg_fe 0 (fe_fsgref kg_fe 1 0) [[5%Z]].
Proof. repeat split; try (intros [|i] H; [reflexivity|lia]); intros [|i] [|e] Hi He; try lia; vm_compute; reflexivity. Qed.
