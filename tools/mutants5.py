"""Edits of constants and formulas, aimed at the accuracy theorems C101 and C102."""
M = []
def m(name, file, old, new, claim, *expect, **kw):
    M.append(dict(name=name, file=file, old=old, new=new, claim=claim, expect=list(expect), **kw))
T, G, E, W, I, Fi = "ModelTS.v", "ModelGlicko.v", "ModelEgf.v", "ModelWengLin.v", "ModelIngo.v", "ModelFifa.v"
m("z-erfc-const", T, "(flit (-126551223) 100000000)", "(flit (-126541223) 100000000)", "erfc is accurate to 1.1e-5 of its value", "C102", "C86")
m("z-erfc-digits", T, "(flit 148851587 100000000)", "(flit 148815587 100000000)", "erfc is accurate to 1.1e-5 of its value", "C102", "C86")
m("z-tiny-big", T, "flit 2222758749 (10 ^ 171)", "flit 2222758749 (10 ^ 17)", "upsets of up to 26 deviations use the exact formula", "C102")
m("z-v-fallback", T, "if norm <? ts_tiny then - diff_c + draw_c\n", "if norm <? ts_tiny then - diff_c - draw_c\n", "the fallback is the asymptote of the correction", "C102")
m("z-w-fallback", T, "(if diff_c <? #0 then #1 else #0)", "(if diff_c <? #0 then #0 else #1)", "a huge upset shrinks the variance fully", "C102")
m("z-vdraw-sign", T, "if diff_c <? #0 then - x / norm else x / norm.", "x / norm.", "a draw moves the weaker side up", "C102", "C50")
m("z-wdraw-term", T, "(ffma (draw_c - diff_c_abs) p1 (- (- draw_c - diff_c_abs) * p2) / norm)", "(ffma (draw_c - diff_c_abs) p1 ((- draw_c - diff_c_abs) * p2) / norm)", "the variance correction of a draw", "C102")
m("z-wdraw-fall", T, "    if norm <? ts_tiny then #1\n", "    if norm <? ts_tiny then #0\n", "a draw that nobody expected shrinks the variance", "C102")
m("z-pdf", T, "frecip (fsqrt (#2 * fpi) * fabs sigma)", "frecip (fsqrt fpi * fabs sigma)", "the normal density is normalised", "C102")
m("z-cdf-half", T, "(sigma * fsqrt2)).\n  (** erf.rs:86", "(sigma * #2)).\n  (** erf.rs:86", "expected scores are normal probabilities", "C102", "C86")
m("z-c-beta", T, "fsqrt (ffma #2 (fpowi beta 2) (ffma u1 u1 (fpowi u2 2))).\n\n  (** mod.rs:348", "fsqrt (ffma #1 (fpowi beta 2) (ffma u1 u1 (fpowi u2 2))).\n\n  (** mod.rs:348", "both players contribute beta^2", "C102")
m("z-inv-step", T, "      let x := inverse_erfc_step y x in\n      let x := inverse_erfc_step y x in\n", "      let x := inverse_erfc_step y x in\n", "the draw margin makes the draw probability come true", "C59")
m("z-gl-q", G, "fln #10 / #400.", "fln #10 / #401.", "Glicko's q is ln 10/400", "C101")
m("z-gl-pi", G, "/ (fpowi fpi 2))", "/ #10)", "g uses pi^2, not 10", "C101")
m("z-gl-three", G, "((#3 * fpowi q 2", "((flit 2999 1000 * fpowi q 2", "g uses 3 q^2", "C101")
m("z-gl-cap", G, "fmin (fhypot deviation c) #350.", "fmin (deviation + c) #350.", "the deviation grows by the root of the sum of squares", "C101")
m("z-fifa-600", Fi, "(- (fifa_rating player_one - fifa_rating player_two) / #600)", "(- (fifa_rating player_one - fifa_rating player_two) / #601)", "FIFA's scale is 600", "C101")
m("z-egf-exp", E, "(flit 16 10)", "(flit 161 100)", "con has exponent 1.6", "C101")
m("z-egf-80", E, "(fexp ((#2300 - rating) / #80))", "(fexp ((#2300 - rating) / #79))", "the bonus scale is 80", "C101")
m("z-egf-hcap", E, "#100 * (handicap - flit 5 10)", "#100 * handicap", "the handicap is worth 100 (h - 1/2)", "C101")
m("z-wl-gamma", W, "fpowi (player_uncertainty / c_value) 3", "fpowi (player_uncertainty / c_value) 2", "the uncertainty shrinks with the cube", "C101")
m("z-wl-beta", W, "fsqrt (ffma #2 (fpowi beta 2) (ffma u1 u1 (fpowi u2 2))).", "fsqrt (ffma #2 beta (ffma u1 u1 (fpowi u2 2))).", "c uses beta^2", "C101")
m("z-ingo-50", I, "ffma #100 score (#(-50))", "ffma #100 score (#(-51))", "an even score is performance equal to the opponent", "C101")
m("z-ingo-100", I, "let exp_one := flit 5 10 + (ingo_rating player_two - ingo_rating player_one) / #100 in", "let exp_one := flit 5 10 + (ingo_rating player_two - ingo_rating player_one) / #200 in", "Ingo's scale is 100", "C101")
MUTANTS = M
