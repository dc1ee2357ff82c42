-Q theories Verif
theories/Base.v
theories/PyVal.v
theories/PyType.v
theories/Program.v
theories/Compat.v
theories/Syntax.v
theories/SeRender.v
theories/DeRender.v
theories/Eval.v
theories/Formats.v
theories/Facts.v
theories/Mono.v
theories/Ex.v
theories/Refuted.v
theories/Spec.v
theories/Cover.v
theories/Walk.v
theories/Cache.v
theories/SeRT.v
theories/DeRT.v
theories/SpecFmt.v
theories/Decide.v
theories/Transport.v
theories/RoundTrip.v
theories/PropsTrip.v
theories/Depend.v
theories/PropsSe.v
theories/PropsDe.v
theories/PropsExc.v
theories/PropsUnion.v
theories/PropsField.v
theories/Deco.v
theories/PropsWire.v
theories/PropsFlat.v
theories/PropsIndep.v
theories/PropsGlobal.v
theories/PropsTuple.v
theories/PropsTop.v
theories/PropsUTrip.v
theories/PropsGen.v
theories/PropsName.v
theories/PropsSkip.v
theories/PropsMore.v
theories/PropsSkipFlat.v
theories/PropsEnd.v
theories/PropsREnd.v
theories/PropsPart.v
theories/PropsBare.v
theories/PropsElem.v
theories/PropsPut.v
