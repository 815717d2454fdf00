"""Wrong programs aimed at the conversions between systems, the order of two players
and the rematch properties (C95, C131, C132)."""
M = []
def m(name, file, old, new, claim, *expect):
    M.append(dict(name=name, file=file, old=old, new=new, claim=claim, expect=list(expect)))
U, I, D, C, T, F = "ModelUscf.v", "ModelIngo.v", "ModelDwz.v", "ModelConv.v", "ModelTS.v", "ModelFifa.v"
m("z-conv-g2-swap", C, "mkGlicko2 (gl_rating g) (gl_deviation g) (g2_volatility glicko2_new)", "mkGlicko2 (gl_deviation g) (gl_rating g) (g2_volatility glicko2_new)", "a converted pair keeps its favourite", "C61", "C132")
m("z-conv-g2-default", C, "mkGlicko2 (gl_rating g) (gl_deviation g) (g2_volatility glicko2_new)", "mkGlicko2 (gl_rating g) (g2_deviation glicko2_new) (g2_volatility glicko2_new)", "the deviation survives the conversion", "C61", "C132")
m("z-conv-g2-rating", C, "mkGlicko2 (gl_rating g) (gl_deviation g) (g2_volatility glicko2_new)", "mkGlicko2 (gl_rating g - #1500) (gl_deviation g) (g2_volatility glicko2_new)", "the rating survives the conversion", "C61")
m("z-conv-boost", C, "mkBoost (st_rating s) (st_deviation s)", "mkBoost (st_deviation s) (st_rating s)", "Sticko converts to Glicko-Boost unchanged", "C61")
m("z-conv-ts", T, "mkTS (wl_rating w) (wl_uncertainty w).", "mkTS (wl_rating w) (wl_rating w / #3).", "the uncertainty survives the conversion", "C61", "C132")
m("z-conv-wl", T, "mkWL (ts_rating t) (ts_uncertainty t).", "mkWL (ts_rating t - #3 * ts_uncertainty t) (ts_uncertainty t).", "the rating survives the conversion", "C61")
m("z-conv-uscf-swap", U, "if elo_rating e >? #2000 then mkUscf", "if #2000 >? elo_rating e then mkUscf", "the steeper line belongs to the lower ratings", "C61", "C132")
m("z-conv-uscf-const", U, "mkUscf (ffma (flit 94 100) (elo_rating e) #180) 10", "mkUscf (ffma (flit 94 100) (elo_rating e) #20) 10", "the two lines meet at 2000", "C61", "C132")
m("z-conv-ingo-sign", I, "mkIngo (#355 - (elo_rating e / #8))", "mkIngo (#355 + (elo_rating e / #8))", "a converted pair keeps its favourite", "C61", "C132")
m("z-conv-dwz", D, "mkDwz (elo_rating e) 6 (dwz_age dwz_default).", "mkDwz (elo_rating e - #100) 6 (dwz_age dwz_default).", "DWZ and Elo ratings are interchangeable", "C61")
MUTANTS = M
