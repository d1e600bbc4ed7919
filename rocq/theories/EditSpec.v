(** What the three edits do, in terms of the data of [Spec]. *)
From Coq Require Import List ZArith Arith.
From Verif Require Import Num Vec Heap Spec.
Import ListNotations.

Section EditSpec.
Context {N : Num}.

(** Edge u0-u2 with the triangles f0 = (u0,u2,u1) and f1 = (u2,u0,u3); [he] is
    one of its two half-edges. *)
Definition EdgeOf (m : mesh N) (he u0 u1 u2 u3 f0 f1 : nat) : Prop :=
  (h_src m he = Some u0 /\ dst_of m he = Some u2 \/ h_src m he = Some u2 /\ dst_of m he = Some u0) /\
  Tri m f0 u0 u2 u1 /\ Tri m f1 u2 u0 u3 /\ f0 <> f1 /\
  NoDup [u0; u1; u2; u3].

(** Edge u0-u2 has been replaced by u1-u3. *)
Record FlipEffect (m m' : mesh N) (he u0 u1 u2 u3 f0 f1 : nat) : Prop := {
  fe_edge : EdgeOf m he u0 u1 u2 u3 f0 f1;
  fe_lists : m_verts m' = m_verts m /\ m_hes m' = m_hes m /\ m_faces m' = m_faces m;
  fe_data : forall v, SameData m m' v;
  fe_ends : exists a b, h_src m' he = Some a /\ dst_of m' he = Some b /\ same_pair a b u1 u3;
  fe_adj : forall a b, adj m' a b <-> (adj m a b /\ ~ same_pair a b u0 u2) \/ same_pair a b u1 u3;
  fe_f0 : Tri m' f0 u3 u1 u0;
  fe_f1 : Tri m' f1 u1 u3 u2;
  fe_other : forall h, In h (m_hes m) -> h_face m h <> Some f0 -> h_face m h <> Some f1 -> SameHE m m' h;
  fe_deg0 : deg_of m u0 = S (deg_of m' u0);
  fe_deg2 : deg_of m u2 = S (deg_of m' u2);
  fe_deg1 : deg_of m' u1 = S (deg_of m u1);
  fe_deg3 : deg_of m' u3 = S (deg_of m u3);
  fe_deg : forall v, v <> u0 -> v <> u1 -> v <> u2 -> v <> u3 -> deg_of m' v = deg_of m v;
  fe_bd : forall h, h_bd m' h = h_bd m h
}.

(** A vertex vn has been inserted on the edge u0-u2. *)
Record SplitEffect (m m' : mesh N) (he u0 u1 u2 u3 f0 f1 vn g0 g1 : nat) : Prop := {
  se_edge : EdgeOf m he u0 u1 u2 u3 f0 f1;
  se_verts : m_verts m' = m_verts m ++ [vn];
  se_faces : m_faces m' = m_faces m ++ [g0; g1];
  se_hes : exists l, m_hes m' = m_hes m ++ l /\ length l = 6;
  se_pos : v_pos m' vn = vscale nhalf (vadd (v_pos m u0) (v_pos m u2));
  se_lock : v_lock m' vn = false;
  se_data : forall v, In v (m_verts m) -> SameData m m' v;
  se_adj : forall a b, adj m' a b <->
     (adj m a b /\ ~ same_pair a b u0 u2) \/ (a = vn /\ In b [u0; u1; u2; u3]) \/ (b = vn /\ In a [u0; u1; u2; u3]);
  se_f0 : Tri m' f0 vn u2 u1;
  se_g0 : Tri m' g0 u0 vn u1;
  se_f1 : Tri m' f1 u2 vn u3;
  se_g1 : Tri m' g1 vn u0 u3;
  se_other : forall h, In h (m_hes m) -> h_face m h <> Some f0 -> h_face m h <> Some f1 -> SameHE m m' h;
  se_degn : deg_of m' vn = 4;
  se_deg1 : deg_of m' u1 = S (deg_of m u1);
  se_deg3 : deg_of m' u3 = S (deg_of m u3);
  se_deg : forall v, In v (m_verts m) -> v <> u1 -> v <> u3 -> deg_of m' v = deg_of m v;
  se_bd : (forall h, In h (m_hes m) -> h_bd m' h = h_bd m h) /\ (forall h, In h (m_hes m') -> ~ In h (m_hes m) -> h_bd m' h = false)
}.

(** Renaming of the removed end point. *)
Definition merge (u0 u2 v : nat) : nat := if Nat.eqb v u2 then u0 else v.

(** Vertex u2 has been merged into u0. *)
Record CollapseEffect (m m' : mesh N) (he u0 u1 u2 u3 f0 f1 : nat) : Prop := {
  ce_edge : EdgeOf m he u0 u1 u2 u3 f0 f1;
  ce_verts : forall v, In v (m_verts m') <-> In v (m_verts m) /\ v <> u2;
  ce_faces : forall f, In f (m_faces m') <-> In f (m_faces m) /\ f <> f0 /\ f <> f1;
  ce_hes : forall h, In h (m_hes m') <-> In h (m_hes m) /\ h_face m h <> Some f0 /\ h_face m h <> Some f1;
  ce_nv : length (m_verts m) = 1 + length (m_verts m');
  ce_nf : length (m_faces m) = 2 + length (m_faces m');
  ce_nh : length (m_hes m) = 6 + length (m_hes m');
  ce_data : forall v, SameData m m' v;
  ce_adj : forall a b, adj m' a b <-> a <> b /\ exists c d, adj m c d /\ a = merge u0 u2 c /\ b = merge u0 u2 d;
  ce_src : forall h v, In h (m_hes m') -> (h_src m' h = Some v <-> exists w, h_src m h = Some w /\ v = merge u0 u2 w);
  ce_next : forall h, In h (m_hes m') -> h_next m' h = h_next m h /\ h_face m' h = h_face m h /\ h_bd m' h = h_bd m h;
  ce_deg0 : deg_of m' u0 + 4 = deg_of m u0 + deg_of m u2;
  ce_deg1 : deg_of m u1 = S (deg_of m' u1);
  ce_deg3 : deg_of m u3 = S (deg_of m' u3);
  ce_deg : forall v, v <> u0 -> v <> u1 -> v <> u2 -> v <> u3 -> deg_of m' v = deg_of m v
}.

(** One edge has been collapsed. *)
Definition Collapsed (m m' : mesh N) : Prop :=
  exists he, In he (m_hes m) /\ exists u0 u1 u2 u3 f0 f1, CollapseEffect m m' he u0 u1 u2 u3 f0 f1.

End EditSpec.
