-Q theories Verif
theories/Num.v
theories/NumR.v
theories/NumF64.v
theories/Str.v
theories/Gcode.v
theories/GcodeSpec.v
theories/GcodeProofs.v
theories/GcodeProofs2.v
theories/GcodeProofs3.v
theories/GcodeProofs4.v
theories/GcodeProofs5.v
theories/GcodeR.v
theories/GcodeFeed.v
theories/GcodeLexSpec.v
theories/GcodeLex.v
theories/GcodeLex2.v
theories/PropsGcode.v
theories/Geom.v
theories/GeomR.v
theories/GeomSpec.v
theories/GeomProofs.v
theories/GeomProofs2.v
theories/GeomProofs3.v
theories/Ellipse.v
theories/GeomProofs4.v
theories/GeomProofs5.v
theories/GeomProofs6.v
theories/GeomProofs7.v
theories/PropsGeom.v
theories/Cam.v
theories/CamSpec.v
theories/CamProofs1.v
theories/CamProofs2.v
theories/CamProofs3.v
theories/CamProofs4.v
theories/CamR.v
theories/PropsCam.v
theories/PropsCam2.v
theories/PropsCam3.v
theories/PropsCam4.v
theories/Bezier.v
theories/BezierSpec.v
theories/BezierProofs.v
theories/BezierLen.v
theories/BezierProofs2.v
theories/BezierProofs3.v
theories/BezierProofs4.v
theories/ArcTangent.v
theories/BezierProofs5.v
theories/Polygon.v
theories/PolySpec.v
theories/PolyHull.v
theories/PolyHull2.v
theories/PolyHull3.v
theories/PolyProofs.v
theories/PolyProofs2.v
theories/PolyProofs3.v
theories/PolyProofs4.v
theories/PolyProofs5.v
theories/PropsPoly.v
theories/PropsBezier.v
theories/PropsBezier2.v
theories/Graph.v
theories/GraphSpec.v
theories/GraphProofs.v
theories/GraphProofs2.v
theories/GraphFaces.v
theories/GraphPeel.v
theories/GraphZ.v
theories/PropsGraph.v
theories/PropsGraph2.v
theories/GraphR.v
theories/Svg.v
theories/SvgSpec.v
theories/GeomSvg.v
theories/SvgProofs.v
theories/SvgProofs2.v
theories/SvgProofs3.v
theories/SvgProofs4.v
theories/PropsSvg.v
theories/SvgDoc.v
theories/SvgDocSpec.v
theories/SvgDocProofs.v
theories/SvgDocProofs2.v
theories/PropsSvgDoc.v
theories/Css.v
theories/CssSpec.v
theories/CssProofs.v
theories/CssProofs2.v
theories/PropsCss.v
theories/Shuffle.v
theories/PropsShuffle.v
theories/Offset.v
theories/OffsetSpec.v
theories/OffsetProofs.v
theories/PropsOffset.v
theories/Fillet.v
theories/FilletSpec.v
theories/FilletProofs.v
theories/FilletProofs2.v
theories/FilletProofs3.v
theories/FilletProofs4.v
theories/PropsFillet.v
theories/Preprocess.v
theories/PreprocessSpec.v
theories/PropsPreprocess.v
theories/PropsGcode2.v
theories/GeomSpec2.v
theories/GeomProofs8.v
theories/GeomProofs9.v
theories/GeomProofs10.v
theories/PropsGeom2.v
theories/PropsEllipse.v
theories/PropsPoly2.v
theories/PropsBrush.v
theories/PropsTravel.v
theories/GeomSvgSpec.v
theories/GeomSvgProofs.v
theories/PropsBezier3.v
theories/SvgOut.v
theories/SvgOutSpec.v
theories/SvgOutProofs.v
theories/PropsSvgOut.v
theories/Preview.v
theories/PreviewSpec.v
theories/PropsGcode3.v
theories/PropsPreview.v
theories/PropsPreview2.v
theories/PropsPreview3.v
theories/PropsGeomSvg.v
theories/PropsGeomSvg2.v
theories/Ink.v
theories/InkSpec.v
theories/InkProofs.v
theories/PropsInk.v
theories/PropsInk2.v
theories/PropsInk3.v
theories/PropsInkFlip.v
theories/SineWave.v
theories/PropsSineWave.v
theories/Output.v
theories/PropsOutput.v
theories/MotionProofs.v
theories/PropsMotion.v
theories/Tcnc.v
theories/TcncSpec.v
theories/PropsTcnc.v
theories/TourSpec.v
theories/TourProofs.v
theories/PropsTour.v
theories/PropsTcnc2.v
theories/OptionSpec.v
theories/PropsOption.v
theories/PropsTcnc3.v
theories/Lines.v
theories/PropsLines.v
theories/PropsLines2.v
theories/Quasi.v
theories/PropsQuasi.v
theories/PropsQuasi2.v
theories/PropsGcode4.v
theories/PropsGeom3.v
theories/PropsCam5.v
theories/Extras.v
theories/PropsExtras.v
theories/PropsExtras2.v
theories/PropsPreview4.v
theories/Voronoi.v
theories/VoronoiSpec.v
theories/VoronoiProofs.v
theories/VoronoiProofs2.v
theories/VoronoiProofs3.v
theories/VoronoiProofs4.v
theories/VoronoiExact.v
theories/PropsVoronoi.v
theories/VoronoiExt.v
theories/VoronoiExtSpec.v
theories/PropsVoronoiExt.v
theories/Quasink.v
theories/QuasinkSpec.v
theories/PropsQuasink.v
theories/ClipperOffset.v
theories/ClipperSpec.v
theories/ClipperProofs.v
theories/PropsClipper.v
theories/PropsLines3.v
theories/PropsQuasi3.v
theories/PolyPathExt.v
theories/PropsPolyPath.v
theories/PropsOutput2.v
theories/PropsInk4.v
theories/LineExt.v
theories/PropsLineExt.v
