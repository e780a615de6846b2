-Q theories Verif
theories/Str.v
theories/StrFacts.v
theories/SpecLex.v
theories/Tz.v
theories/TzProofs.v
theories/GTypes.v
theories/GProofs.v
theories/Ints.v
theories/IntsProofs.v
theories/PropsLex.v
theories/Dur.v
theories/SpecDur.v
theories/DurProofs.v
theories/PropsDur.v
theories/DateTime.v
theories/SpecDate.v
theories/DateProofs.v
theories/PropsDate.v
theories/Serde.v
theories/SpecSerde.v
theories/SerdeProofs.v
theories/PropsSerde.v
theories/BigDec.v
theories/SpecBigDec.v
theories/BigDecProofs.v
theories/PropsBigDec.v
theories/Xml.v
theories/Comment.v
theories/Names.v
theories/Prim.v
theories/SpecBuiltin.v
theories/SpecNames.v
theories/CommentProofs.v
theories/NamesProofs.v
theories/PropsNames.v
theories/Entity.v
theories/Parser.v
theories/ParserFacts.v
theories/SpecSchema.v
theories/ParserProofs.v
theories/PropsParser.v
theories/Link.v
theories/SpecLink.v
theories/LinkProofs.v
theories/PropsLink.v
theories/Gen.v
theories/SpecRust.v
theories/SpecGen.v
theories/RustFacts.v
theories/GenProofs.v
theories/SpecCheck.v
theories/GenProofs2.v
theories/PropsGen.v
theories/SpecDoc.v
theories/DocProofs.v
theories/PropsDoc.v
theories/Wsdl.v
theories/SpecWsdl.v
theories/WsdlProofs.v
theories/PropsWsdl.v
theories/Cli.v
theories/SpecCli.v
theories/CliProofs.v
theories/PropsCli.v
theories/SpecScope.v
theories/ScopeProofs.v
theories/PropsScope.v
theories/SpecTraits.v
theories/TraitProofs.v
theories/PropsTraits.v
theories/SpecSize.v
theories/SizeProofs.v
theories/PropsSize.v
theories/SpecDistinct.v
theories/ShapeProofs.v
theories/DistinctProofs.v
theories/DistinctProofs2.v
theories/PropsDistinct.v
theories/MemberProofs.v
theories/PropsMembers.v
theories/SpecFit.v
theories/SpecRestrict.v
theories/SpecWrite.v
theories/FitProofs.v
theories/FitProofs2.v
theories/PropsFit.v
theories/PropsWrite.v
theories/SpecValue.v
theories/ValueProofs.v
theories/ValueLib.v
theories/SpecTrip.v
theories/TripProofs.v
theories/PropsValue.v
theories/Builder.v
theories/PropsBuilder.v
theories/PropsBase.v
theories/PropsLists.v
theories/SpecChoice.v
theories/PropsRestrict.v
theories/PropsAlike.v
theories/SpecFlat.v
theories/PropsFlat.v
theories/SpecNest.v
theories/PropsNest.v
theories/PropsDeep.v
theories/PropsChoice.v
theories/XmlEq.v
theories/PropsXmlEq.v
theories/Order.v
theories/SpecDouble.v
theories/Float.v
theories/FloatProofs.v
theories/ArithProofs.v
theories/PropsStd.v
theories/DisplayProofs.v
theories/PropsFloat.v
theories/SpecLibrary.v
theories/LibraryProofs.v
theories/OrderProofs.v
theories/PropsLibrary.v
theories/PropsTrip.v
theories/PropsNestValue.v
theories/PropsAgain.v
theories/PropsSettle.v
theories/SpecService.v
theories/ServiceProofs.v
theories/PropsService.v
theories/SpecStr.v
theories/StrProofs.v
theories/PropsStr.v
theories/PropsEntity.v
