(** Model of the [From] conversions between the Glicko family ratings. *)
From Coq Require Import ZArith NArith List.
From Verif Require Import Arith ModelLib ModelGlicko ModelGlicko2 ModelSticko ModelBoost.
Local Open Scope flt_scope.

Section S.
  Context {F : Type} {A : Arith F}.

  (** glicko.rs:116-123, 125-132, 134-141. *)
  Definition glicko_from_glicko2 (g : Glicko2Rating F) : GlickoRating F := mkGlicko (g2_rating g) (g2_deviation g).
  Definition glicko_from_boost (g : GlickoBoostRating F) : GlickoRating F := mkGlicko (gb_rating g) (gb_deviation g).
  Definition glicko_from_sticko (s : StickoRating F) : GlickoRating F := mkGlicko (st_rating s) (st_deviation s).
  (** glicko2.rs:127-135, 137-145, 147-155 (volatility from [Default]). *)
  Definition glicko2_from_glicko (g : GlickoRating F) : Glicko2Rating F :=
    mkGlicko2 (gl_rating g) (gl_deviation g) (g2_volatility glicko2_new).
  Definition glicko2_from_boost (g : GlickoBoostRating F) : Glicko2Rating F :=
    mkGlicko2 (gb_rating g) (gb_deviation g) (g2_volatility glicko2_new).
  Definition glicko2_from_sticko (s : StickoRating F) : Glicko2Rating F :=
    mkGlicko2 (st_rating s) (st_deviation s) (g2_volatility glicko2_new).
  (** sticko.rs:135-142, 144-151, 153-160. *)
  Definition sticko_from_glicko (g : GlickoRating F) : StickoRating F := mkSticko (gl_rating g) (gl_deviation g).
  Definition sticko_from_glicko2 (g : Glicko2Rating F) : StickoRating F := mkSticko (g2_rating g) (g2_deviation g).
  Definition sticko_from_boost (g : GlickoBoostRating F) : StickoRating F := mkSticko (gb_rating g) (gb_deviation g).
  (** glicko_boost.rs:138-145, 147-154, 156-163. *)
  Definition boost_from_glicko (g : GlickoRating F) : GlickoBoostRating F := mkBoost (gl_rating g) (gl_deviation g).
  Definition boost_from_glicko2 (g : Glicko2Rating F) : GlickoBoostRating F := mkBoost (g2_rating g) (g2_deviation g).
  Definition boost_from_sticko (s : StickoRating F) : GlickoBoostRating F := mkBoost (st_rating s) (st_deviation s).
End S.
